(** Property theorems C39, C40 and C45: shift nodes. *)
From Coq Require Import Reals List Arith Lia Lra Bool ZArith Permutation.
From Coquelicot Require Import Complex.
From Verif Require Import Prelude NamesModel NamesSpec NamesProofs FockModel FockSpec FockProofs GateProofs StateModel StateSpec StateProofs
  ApplyProofs CollectionModel CollectionSpec EvalModel EvalSpec EvalProofs WfProofs PropState PropEval ReshapeProofs CustomModel CustomSpec.
Import ListNotations.

(** ** Matrices of functions *)
Definition fmat (g : nat -> nat) : mat := fun o i => if o =? g i then RtoC 1 else RtoC 0.

Lemma fmat_mul d g h : (forall i, i < d -> h i < d) -> forall o i, i < d -> mat_mul d (fmat g) (fmat h) o i = fmat (fun x => g (h x)) o i.
Proof.
  intros Hh o i Hi. unfold mat_mul, fmat. rewrite (Csum_single _ (h i)).
  - rewrite Nat.eqb_refl. now rewrite Cmult_1_r.
  - apply seq_NoDup.
  - apply in_seq. specialize (Hh i Hi). lia.
  - intros x _ Hne. apply Nat.eqb_neq in Hne. rewrite Hne. apply Cmult_0_r.
Qed.
Lemma mat_mul_ext d A A' B B' : (forall o i, o < d -> i < d -> A o i = A' o i) -> (forall o i, o < d -> i < d -> B o i = B' o i) ->
  forall o i, o < d -> i < d -> mat_mul d A B o i = mat_mul d A' B' o i.
Proof. intros HA HB o i Ho Hi. unfold mat_mul. apply Csum_ext. intros k Hk. apply in_seq in Hk. rewrite HA, HB by lia. reflexivity. Qed.
Lemma fmat_unitary d g : (forall i, i < d -> g i < d) -> (forall i j, i < d -> j < d -> g i = g j -> i = j) -> unitary_mat d (fmat g).
Proof.
  intros Hb Hi i j Hi' Hj'. split.
  - assert (HS : exists k0, k0 < d /\ g k0 = i).
    { assert (P : Permutation (map g (seq 0 d)) (seq 0 d)).
      { apply NoDup_Permutation_bis.
        - apply map_inj_NoDup; [|apply seq_NoDup]. intros x y Hx Hy. apply in_seq in Hx, Hy. apply Hi; lia.
        - rewrite map_length. lia.
        - intros x Hx. apply in_map_iff in Hx. destruct Hx as (k & <- & Hk). apply in_seq in Hk. apply in_seq. specialize (Hb k). lia. }
      assert (In i (map g (seq 0 d))) as H by (apply (Permutation_in _ (Permutation_sym P)); apply in_seq; lia).
      apply in_map_iff in H. destruct H as (k & E & Hk). apply in_seq in Hk. exists k. split; [lia|auto]. }
    destruct HS as (k0 & Hk0 & E0). rewrite (Csum_single _ k0).
    + unfold fmat. rewrite E0, Nat.eqb_refl, Cmult_1_l, (Nat.eqb_sym j i). destruct (i =? j); apply Cconj_RtoC.
    + apply seq_NoDup.
    + apply in_seq. lia.
    + intros k Hk Hne. apply in_seq in Hk. unfold fmat. destruct (Nat.eqb_spec i (g k)) as [E|]; [|apply Cmult_0_l].
      exfalso. apply Hne. apply Hi; lia.
  - rewrite (Csum_single _ (g i)).
    + unfold fmat. rewrite Nat.eqb_refl, Cconj_RtoC, Cmult_1_l. destruct (Nat.eqb_spec i j) as [<-|Hne].
      * now rewrite Nat.eqb_refl.
      * destruct (Nat.eqb_spec (g i) (g j)) as [E|]; [|reflexivity]. exfalso. apply Hne. now apply Hi.
    + apply seq_NoDup.
    + apply in_seq. specialize (Hb i Hi'). lia.
    + intros k Hk Hne. unfold fmat. apply Nat.eqb_neq in Hne. rewrite Hne, Cconj_RtoC. apply Cmult_0_l.
Qed.

(** The map on indices that belongs to a map on tuples. *)
Definition on_index (D : dims) (f : values -> values) (i : nat) : nat := index_of_values D (f (values_from_index D i)).
Definition keeps_valid (D : dims) (f : values -> values) : Prop := forall vs, valid D vs -> valid D (f vs).

Lemma on_index_bound D f i : 1 <= dL D -> keeps_valid D f -> on_index D f i < size_of_basis D.
Proof. intros HL Hf. apply index_of_values_bound, Hf, values_from_index_valid, HL. Qed.
Lemma on_index_comp D f g i : 1 <= dL D -> keeps_valid D g -> on_index D f (on_index D g i) = on_index D (fun vs => f (g vs)) i.
Proof. intros HL Hg. unfold on_index. rewrite values_index_roundtrip; [reflexivity|exact HL|apply Hg, values_from_index_valid, HL]. Qed.
Lemma on_index_inj D f i j : 1 <= dL D -> keeps_valid D f -> (forall us vs, valid D us -> valid D vs -> f us = f vs -> us = vs) ->
  i < size_of_basis D -> j < size_of_basis D -> on_index D f i = on_index D f j -> i = j.
Proof.
  intros HL Hf Hinj Hi Hj E. apply index_of_values_inj in E; auto; try (apply Hf; now apply values_from_index_valid).
  apply Hinj in E; try now apply values_from_index_valid. now apply (values_from_index_inj D).
Qed.

Definition is_map (D : dims) (M : mat) (f : values -> values) : Prop :=
  forall o i, o < size_of_basis D -> i < size_of_basis D -> M o i = fmat (on_index D f) o i.

Lemma is_map_mul D A B f g : 1 <= dL D -> keeps_valid D g -> is_map D A f -> is_map D B g ->
  is_map D (mat_mul (size_of_basis D) A B) (fun vs => f (g vs)).
Proof.
  intros HL Hg HA HB o i Ho Hi. rewrite (mat_mul_ext _ A (fmat (on_index D f)) B (fmat (on_index D g))) by auto.
  rewrite fmat_mul; auto.
  - unfold fmat. now rewrite on_index_comp.
  - intros k Hk. now apply on_index_bound.
Qed.

Lemma is_map_moves D M f (R : values -> values -> Prop) : 1 <= dL D -> keeps_valid D f -> is_map D M f ->
  (forall from to, valid D from -> valid D to -> (R from to <-> to = f from)) -> moves D M R.
Proof.
  intros HL Hf HM HR from to Vf Vt. rewrite HM by now apply index_of_values_bound. unfold fmat, on_index. rewrite values_index_roundtrip by auto.
  destruct (Nat.eqb_spec (index_of_values D to) (index_of_values D (f from))) as [E|E]; (split; intros H; [|]); try reflexivity; exfalso.
  - apply H, HR; auto. apply (index_of_values_inj D); auto.
  - apply E. apply HR in H; auto. now subst.
Qed.

(** ** One pair *)
Lemma nth_all_values D i : i < size_of_basis D -> nth i (all_values D) [] = values_from_index D i.
Proof.
  intros Hi. unfold all_values. rewrite (nth_indep _ [] (values_from_index D 0)) by now rewrite map_length, seq_length.
  rewrite map_nth. now rewrite seq_nth.
Qed.
Lemma agree_except_spec n t a b x : length a = n -> length b = n -> t < n ->
  (agree_except n t a b && (nth t b 0 =? x) = true <-> b = set_nth a t x).
Proof.
  intros Ha Hb Ht. rewrite andb_true_iff, Nat.eqb_eq. unfold agree_except. rewrite forallb_forall. split.
  - intros [H1 H2]. apply (nth_ext _ _ 0 0); [rewrite set_nth_length; congruence|]. intros k Hk. rewrite nth_set_nth by lia.
    destruct (Nat.eqb_spec k t) as [->|Hne].
    + exact H2.
    + specialize (H1 k). assert (Hin : In k (seq 0 n)) by (apply in_seq; lia). apply H1 in Hin.
      apply orb_prop in Hin. destruct Hin as [Hin|Hin]; apply Nat.eqb_eq in Hin; [contradiction|now symmetry].
  - intros ->. split.
    + intros k Hk. apply in_seq in Hk. rewrite nth_set_nth by lia. destruct (Nat.eqb_spec k t) as [->|Hne]; [reflexivity|]. cbn [orb]. apply Nat.eqb_refl.
    + rewrite nth_set_nth by lia. now rewrite Nat.eqb_refl.
Qed.
Lemma set_nth_valid D vs t x : valid D vs -> x < dL D -> valid D (set_nth vs t x).
Proof.
  intros [Hl HF] Hx. split; [now rewrite set_nth_length|]. clear Hl. revert t. induction HF as [|v l Hv HF IH]; intros [|t]; cbn; constructor; auto.
Qed.
Lemma transition_map D t new : 1 <= dL D -> t < dN D -> (forall vs, valid D vs -> new vs < dL D) ->
  is_map D (transition (dN D) (all_values D) t new) (fun vs => set_nth vs t (new vs)).
Proof.
  intros HL Ht Hn o i Ho Hi. unfold transition, fmat, on_index. cbv zeta. rewrite !nth_all_values by auto.
  pose proof (values_from_index_valid D i HL) as Vi. pose proof (values_from_index_valid D o HL) as Vo.
  pose proof (agree_except_spec (dN D) t (values_from_index D i) (values_from_index D o) (new (values_from_index D i)) (proj1 Vi) (proj1 Vo) Ht) as HS.
  destruct (agree_except _ _ _ _ && _); symmetry.
  - rewrite <- (proj1 HS eq_refl), index_values_roundtrip by auto. now rewrite Nat.eqb_refl.
  - destruct (Nat.eqb_spec o (index_of_values D (set_nth (values_from_index D i) t (new (values_from_index D i))))) as [E|]; [|reflexivity].
    exfalso. apply Bool.diff_false_true. apply HS. rewrite E. apply values_index_roundtrip; [exact HL|]. apply set_nth_valid; auto.
Qed.

(** Products: the last matrix acts first. *)
Lemma product_map D (l : list (mat * (values -> values))) : 1 <= dL D ->
  Forall (fun x => keeps_valid D (snd x) /\ is_map D (fst x) (snd x)) l -> forall M0 f0, is_map D M0 f0 ->
  is_map D (fold_left (mat_mul (size_of_basis D)) (map fst l) M0) (fun vs => f0 (fold_right (fun x w => snd x w) vs l)).
Proof.
  intros HL HF. induction HF as [|[M f] l [Hk Hm] HF IH]; intros M0 f0 H0; cbn [map fold_left fst fold_right snd]; [exact H0|].
  specialize (IH (mat_mul (size_of_basis D) M0 M) (fun vs => f0 (f vs))). apply IH. now apply is_map_mul.
Qed.
Lemma fold_right_valid D (l : list (mat * (values -> values))) vs : Forall (fun x => keeps_valid D (snd x)) l -> valid D vs ->
  valid D (fold_right (fun x w => snd x w) vs l).
Proof. intros HF V. induction HF as [|x l H _ IH]; [exact V|]. cbn [fold_right]. now apply H. Qed.

(** ** Injective maps *)
Definition inj_valid (D : dims) (f : values -> values) : Prop := forall us vs, valid D us -> valid D vs -> f us = f vs -> us = vs.
Lemma surj_valid D f : 1 <= dL D -> keeps_valid D f -> inj_valid D f -> forall ws, valid D ws -> exists vs, valid D vs /\ f vs = ws.
Proof.
  intros HL Hk Hi ws V.
  assert (P : Permutation (map f (all_values D)) (all_values D)).
  { apply NoDup_Permutation_bis.
    - apply map_inj_NoDup; [|now apply all_values_NoDup]. intros x y Hx Hy. apply all_values_in in Hx, Hy; auto.
    - rewrite map_length. lia.
    - intros x Hx. apply in_map_iff in Hx. destruct Hx as (y & <- & Hy). apply all_values_in in Hy; auto. apply all_values_in; auto. }
  assert (H : In ws (map f (all_values D))) by (apply (Permutation_in _ (Permutation_sym P)); now apply all_values_in).
  apply in_map_iff in H. destruct H as (vs & E & Hv). exists vs. split; [now apply all_values_in in Hv|auto].
Qed.

Lemma mat_vec_map D M f v i : 1 <= dL D -> keeps_valid D f -> inj_valid D f -> is_map D M f -> i < size_of_basis D ->
  mat_vec (size_of_basis D) M v (on_index D f i) = v i.
Proof.
  intros HL Hk Hinj HM Hi. unfold mat_vec. rewrite (Csum_single _ i).
  - rewrite HM by (auto; now apply on_index_bound). unfold fmat. now rewrite Nat.eqb_refl, Cmult_1_l.
  - apply seq_NoDup.
  - apply in_seq. lia.
  - intros j Hj Hne. apply in_seq in Hj. rewrite HM by (try lia; now apply on_index_bound). unfold fmat.
    destruct (Nat.eqb_spec (on_index D f i) (on_index D f j)) as [E|]; [|apply Cmult_0_l].
    exfalso. apply Hne. symmetry. apply (on_index_inj D f); auto; lia.
Qed.

Lemma moved_by_matrix D M f eps st (R : values -> values -> Prop) :
  1 <= dL D -> keeps_valid D f -> inj_valid D f -> is_map D M f -> wf_state D st ->
  (forall from to, valid D from -> valid D to -> (R from to <-> to = f from)) ->
  amplitudes_moved D eps R st (with_comps st (components_from_vector D eps (mat_vec (size_of_basis D) M (state_vector D st)))).
Proof.
  intros HL Hk Hinj HM W HR. set (s := with_comps _ _).
  assert (HA : forall vs, valid D vs -> amp_of D s (f vs) = if Rlt_dec (Cnorm2 (amp_of D st vs)) eps then RtoC 0 else amp_of D st vs).
  { intros vs V. pose proof (Hk vs V) as Vf. unfold amp_of at 1. rewrite <- (values_index_roundtrip D (f vs)) by auto. rewrite <- at_index_of.
    unfold s. rewrite components_amplitude by (auto; now apply index_of_values_bound).
    replace (index_of_values D (f vs)) with (on_index D f (index_of_values D vs)) by (unfold on_index; now rewrite values_index_roundtrip).
    rewrite mat_vec_map by (auto; now apply index_of_values_bound).
    now rewrite state_vector_amp by auto. }
  split; [now repeat split|]. split; [now apply components_wf|]. split.
  - intros from to Vf Vt Hr He. apply HR in Hr; auto. subst to. rewrite HA by auto. destruct (Rlt_dec _ _) as [Hlt|]; [|reflexivity].
    destruct He as [He|He]; [lra|now symmetry].
  - intros to Vt Hne. destruct (surj_valid D f HL Hk Hinj to Vt) as (from & Vf & <-). exists from. split; [exact Vf|]. split; [now apply HR|].
    rewrite HA in Hne |- * by auto. destruct (Rlt_dec _ _); [congruence|reflexivity].
Qed.

Lemma moved_by_renaming D f eps st (R : values -> values -> Prop) :
  1 <= dL D -> keeps_valid D f -> inj_valid D f -> wf_state D st ->
  (forall from to, valid D from -> valid D to -> (R from to <-> to = f from)) ->
  amplitudes_moved D eps R st (with_comps st (renamed_components D f (s_comps st))) /\
  state_norm2 (with_comps st (renamed_components D f (s_comps st))) = state_norm2 st.
Proof.
  intros HL Hk Hinj W HR. destruct (renamed_spec D D f st HL W) as (E & W' & A1 & A2).
  { intros vs H. apply Hk, H. }
  { intros us vs H1 H2. apply Hinj; [apply H1|apply H2]. }
  unfold renamed_components. fold (renamed D D f (s_comps st)). rewrite E. split; [|eapply renamed_norm; reflexivity].
  set (s := with_comps st _) in *.
  assert (HA : forall vs, valid D vs -> amp_of D s (f vs) = amp_of D st vs).
  { intros vs V. destruct (has_dec D st vs V) as [H|H]; [now apply A1|]. rewrite (amp_absent D st vs V H). apply A2; [apply (Hk vs V)|].
    intros us Hu Ef. apply Hinj in Ef; auto; [|apply Hu]. now subst. }
  split; [now repeat split|]. split; [exact W'|]. split.
  - intros from to Vf Vt Hr _. apply HR in Hr; auto. subst to. now apply HA.
  - intros to Vt _. destruct (surj_valid D f HL Hk Hinj to Vt) as (from & Vf & <-). exists from. split; [exact Vf|]. split; [now apply HR|].
    symmetry. now apply HA.
Qed.

(** ** The two kinds of pairs *)
Definition pair_shift (L : nat) (p : Z * nat) (vs : values) : values := set_nth vs (snd p) (shifted_by L (fst p) (nth (snd p) vs 0)).
Definition pair_add (L : nat) (p : nat * nat) (vs : values) : values := set_nth vs (snd p) ((nth (fst p) vs 0 + nth (snd p) vs 0) mod L).

Lemma shifted_by_lt L s v : 1 <= L -> shifted_by L s v < L.
Proof. intros H. unfold shifted_by. pose proof (Z.mod_pos_bound (s + Z.of_nat v) (Z.of_nat L)). lia. Qed.
Lemma shifted_by_inj L s u v : 1 <= L -> u < L -> v < L -> shifted_by L s u = shifted_by L s v -> u = v.
Proof.
  intros HL Hu Hv E. unfold shifted_by in E.
  pose proof (Z.mod_pos_bound (s + Z.of_nat u) (Z.of_nat L)). pose proof (Z.mod_pos_bound (s + Z.of_nat v) (Z.of_nat L)).
  apply Z2Nat.inj in E; try lia. pose proof (Z.div_mod (s + Z.of_nat u) (Z.of_nat L)). pose proof (Z.div_mod (s + Z.of_nat v) (Z.of_nat L)).
  rewrite E in *. assert ((s + Z.of_nat u) / Z.of_nat L = (s + Z.of_nat v) / Z.of_nat L)%Z by nia. nia.
Qed.
Lemma add_mod_inj L a u v : 1 <= L -> u < L -> v < L -> (a + u) mod L = (a + v) mod L -> u = v.
Proof.
  intros HL Hu Hv E. pose proof (Nat.div_mod (a + u) L). pose proof (Nat.div_mod (a + v) L). rewrite E in *.
  assert ((a + u) / L = (a + v) / L) by nia. nia.
Qed.

Lemma pair_shift_valid D p : 1 <= dL D -> keeps_valid D (pair_shift (dL D) p).
Proof. intros HL vs V. apply set_nth_valid; auto. now apply shifted_by_lt. Qed.
Lemma pair_add_valid D p : 1 <= dL D -> keeps_valid D (pair_add (dL D) p).
Proof. intros HL vs V. apply set_nth_valid; auto. apply Nat.mod_upper_bound. lia. Qed.
Lemma set_nth_eq_other (us vs : values) t x y k : t < length us -> t < length vs -> set_nth us t x = set_nth vs t y -> k <> t -> nth k us 0 = nth k vs 0.
Proof.
  intros H1 H2 E Hk. apply (f_equal (fun l => nth k l 0)) in E. rewrite !nth_set_nth in E by auto. apply Nat.eqb_neq in Hk. now rewrite Hk in E.
Qed.
Lemma set_nth_eq_at (us vs : values) t x y : t < length us -> t < length vs -> set_nth us t x = set_nth vs t y -> x = y.
Proof. intros H1 H2 E. apply (f_equal (fun l => nth t l 0)) in E. rewrite !nth_set_nth in E by auto. now rewrite Nat.eqb_refl in E. Qed.
Lemma pair_shift_inj D p : 1 <= dL D -> snd p < dN D -> inj_valid D (pair_shift (dL D) p).
Proof.
  intros HL Ht us vs Vu Vv E. unfold pair_shift in E. assert (Hu : snd p < length us) by (rewrite (proj1 Vu); auto). assert (Hv : snd p < length vs) by (rewrite (proj1 Vv); auto).
  apply (nth_ext us vs 0 0); [rewrite (proj1 Vu), (proj1 Vv); reflexivity|]. intros k _. destruct (Nat.eq_dec k (snd p)) as [->|Hne].
  - apply set_nth_eq_at in E; auto. apply shifted_by_inj in E; auto; now apply nth_valid.
  - eapply set_nth_eq_other; eauto.
Qed.
Lemma pair_add_inj D p : 1 <= dL D -> snd p < dN D -> fst p <> snd p -> inj_valid D (pair_add (dL D) p).
Proof.
  intros HL Ht Hne us vs Vu Vv E. unfold pair_add in E. assert (Hu : snd p < length us) by (rewrite (proj1 Vu); auto). assert (Hv : snd p < length vs) by (rewrite (proj1 Vv); auto).
  apply (nth_ext us vs 0 0); [rewrite (proj1 Vu), (proj1 Vv); reflexivity|]. intros k _.
  assert (Ho : forall k, k <> snd p -> nth k us 0 = nth k vs 0) by (intros; eapply set_nth_eq_other; eauto).
  destruct (Nat.eq_dec k (snd p)) as [->|Hk]; [|now apply Ho].
  apply set_nth_eq_at in E; auto. rewrite (Ho (fst p) Hne) in E. apply add_mod_inj in E; auto; now apply nth_valid.
Qed.

(** Compositions. *)
Section folds.
  Context {P : Type} (D : dims) (step : P -> values -> values) (l : list P).
  Hypothesis Hk : forall p, In p l -> keeps_valid D (step p).
  Lemma folded_valid : keeps_valid D (fun vs => fold_left (fun w p => step p w) l vs).
  Proof. revert Hk. induction l as [|p r IH]; intros Hk vs V; [exact V|]. cbn [fold_left]. apply IH; [intros; apply Hk; now right|]. apply Hk; [now left|exact V]. Qed.
  Lemma folded_inj : (forall p, In p l -> inj_valid D (step p)) -> inj_valid D (fun vs => fold_left (fun w p => step p w) l vs).
  Proof.
    revert Hk. induction l as [|p r IH]; intros Hk Hi us vs Vu Vv E; [exact E|]. cbn [fold_left] in E.
    apply IH in E; try (intros q Hq; (apply Hk || apply Hi); now right); try (apply Hk; [now left|auto]). apply (Hi p); auto. now left.
  Qed.
End folds.

Lemma fold_right_rev' {P} (step : P -> values -> values) l vs : fold_right step vs l = fold_left (fun w p => step p w) (rev l) vs.
Proof. rewrite <- (rev_involutive l) at 1. apply fold_left_rev_right. Qed.

Lemma product_pairs {P} D (mk : P -> mat) (step : P -> values -> values) l M : 1 <= dL D ->
  (forall p, In p l -> keeps_valid D (step p) /\ is_map D (mk p) (step p)) ->
  product_of (size_of_basis D) (map mk l) = Some M -> is_map D M (fun vs => fold_left (fun w p => step p w) (rev l) vs).
Proof.
  intros HL H E. destruct l as [|p0 r]; [discriminate|]. cbn [map product_of] in E. injection E as <-.
  pose proof (product_map D (map (fun p => (mk p, step p)) r) HL) as HP. rewrite map_map in HP. cbn [fst] in HP.
  intros o i Ho Hi. rewrite (HP) with (f0 := step p0); auto.
  - unfold fmat, on_index. replace (fold_left (fun w p => step p w) (rev (p0 :: r)) (values_from_index D i))
      with (step p0 (fold_right (fun x w => snd x w) (values_from_index D i) (map (fun p => (mk p, step p)) r))); [reflexivity|].
    rewrite <- fold_right_rev'. cbn [fold_right]. f_equal. generalize (values_from_index D i). clear. intros vs.
    induction r as [|p r IH]; [reflexivity|]. cbn [map fold_right snd]. now rewrite IH.
  - apply Forall_forall. intros x Hx. apply in_map_iff in Hx. destruct Hx as (p & <- & Hp). cbn [fst snd]. apply H. now right.
  - apply H. now left.
Qed.

(** ** Shifts add up *)
Lemma shift_values_pairs L l vs : shift_values L l vs = fold_left (fun w p => pair_shift L p w) l vs.
Proof. reflexivity. Qed.
Lemma c_shift_values_pairs L l vs : c_shift_values L l vs = fold_left (fun w p => pair_add L p w) l vs.
Proof. unfold c_shift_values. revert vs. induction l as [|p r IH]; intros vs; [reflexivity|]. cbn [fold_left]. rewrite IH. unfold pair_add at 3. now rewrite (Nat.add_comm (nth (fst p) vs 0)). Qed.

Lemma shift_values_nth D l c : 1 <= dL D -> Forall (fun p => snd p < dN D) l -> forall vs, valid D vs -> c < dN D ->
  nth c (shift_values (dL D) l vs) 0 = Z.to_nat ((Z.of_nat (nth c vs 0) + total_shift l c) mod Z.of_nat (dL D)).
Proof.
  intros HL HF. induction HF as [|[s t] r Ht HF IH]; intros vs V Hc; cbn [shift_values fold_left total_shift].
  - rewrite Z.add_0_r, Z.mod_small, Nat2Z.id; [reflexivity|]. pose proof (nth_valid D vs c HL V). lia.
  - cbn [fst snd] in *. change (fold_left _ r ?w) with (shift_values (dL D) r w).
    rewrite IH by (auto; now apply (pair_shift_valid D (s, t))). rewrite nth_set_nth by (rewrite (proj1 V); auto).
    rewrite (Nat.eqb_sym c t). destruct (Nat.eqb_spec t c) as [->|Hne]; [|reflexivity].
    f_equal. unfold shifted_by. rewrite Z2Nat.id by (apply Z.mod_pos_bound; lia). rewrite Zplus_mod_idemp_l. f_equal. lia.
Qed.
Lemma shift_values_length L l : forall vs, length (shift_values L l vs) = length vs.
Proof. induction l as [|p r IH]; intros vs; [reflexivity|]. cbn [shift_values fold_left]. change (fold_left _ r ?w) with (shift_values L r w). now rewrite IH, set_nth_length. Qed.
Lemma shifted_iff D l from to : 1 <= dL D -> Forall (fun p => snd p < dN D) l -> valid D from -> valid D to ->
  (shifted (dL D) l from to <-> to = shift_values (dL D) l from).
Proof.
  intros HL HF Vf Vt. split.
  - intros [El H]. apply (nth_ext _ _ 0 0); [now rewrite shift_values_length|]. intros c Hc. rewrite (shift_values_nth D) by (auto; rewrite <- (proj1 Vt); auto).
    apply H. congruence.
  - intros ->. split; [apply shift_values_length|]. intros c Hc. apply (shift_values_nth D); auto. now rewrite <- (proj1 Vf).
Qed.
Lemma total_shift_app l1 l2 c : total_shift (l1 ++ l2) c = (total_shift l1 c + total_shift l2 c)%Z.
Proof. induction l1 as [|[s t] r IH]; [reflexivity|]. cbn [app total_shift]. rewrite IH. lia. Qed.
Lemma total_shift_rev l c : total_shift (rev l) c = total_shift l c.
Proof. induction l as [|[s t] r IH]; [reflexivity|]. cbn [rev total_shift]. rewrite total_shift_app, IH. cbn [total_shift]. lia. Qed.
Lemma shifted_rev L l from to : shifted L (rev l) from to <-> shifted L l from to.
Proof. unfold shifted. split; intros [E H]; (split; [exact E|]); intros c Hc; specialize (H c Hc); now rewrite total_shift_rev in *. Qed.

(** ** Controlled shifts *)
Lemma added_iff D p from to : 1 <= dL D -> snd p < dN D -> valid D from ->
  (added (dL D) (fst p) (snd p) from to <-> to = pair_add (dL D) p from).
Proof.
  intros HL Ht Vf. unfold pair_add, added. assert (Hl : snd p < length from) by (rewrite (proj1 Vf); auto). split.
  - intros (E1 & E2 & E3). apply (nth_ext _ _ 0 0); [now rewrite set_nth_length|]. intros c Hc. rewrite nth_set_nth by auto.
    destruct (Nat.eqb_spec c (snd p)) as [->|Hne]; [|now apply E3]. rewrite E2. f_equal. lia.
  - intros ->. rewrite set_nth_length, !nth_set_nth by auto. rewrite Nat.eqb_refl. split; [reflexivity|]. split; [f_equal; lia|].
    intros c Hc. rewrite nth_set_nth by auto. apply Nat.eqb_neq in Hc. now rewrite Hc.
Qed.
Lemma added_in_turn_iff D l : 1 <= dL D -> Forall (fun p => snd p < dN D) l -> forall from to, valid D from ->
  (added_in_turn (dL D) l from to <-> to = c_shift_values (dL D) l from).
Proof.
  intros HL HF. induction HF as [|p r Ht HF IH]; intros from to Vf; [reflexivity|]. cbn [added_in_turn].
  assert (E : c_shift_values (dL D) (p :: r) from = c_shift_values (dL D) r (pair_add (dL D) p from)) by (rewrite !c_shift_values_pairs; reflexivity).
  rewrite E. split.
  - intros (mid & H1 & H2). apply (added_iff D) in H1; auto. subst mid. apply IH; auto. now apply pair_add_valid.
  - intros H. exists (pair_add (dL D) p from). split; [now apply (added_iff D)|]. apply IH; auto. now apply pair_add_valid.
Qed.

(** No channel is a control and a target: the order does not matter. *)
Definition separate (l : list (nat * nat)) : Prop := forall p q, In p l -> In q l -> fst p <> snd q.
Lemma separate_rev l : separate l -> separate (rev l).
Proof. intros H p q Hp Hq. apply in_rev in Hp, Hq. now apply H. Qed.
Lemma total_control_ext l us vs c : (forall p, In p l -> nth (fst p) us 0 = nth (fst p) vs 0) -> total_control l us c = total_control l vs c.
Proof. induction l as [|p r IH]; intros H; [reflexivity|]. cbn [total_control]. rewrite IH by (intros; apply H; now right). now rewrite (H p (or_introl eq_refl)). Qed.
Lemma total_control_app l1 l2 vs c : total_control (l1 ++ l2) vs c = total_control l1 vs c + total_control l2 vs c.
Proof. induction l1 as [|p r IH]; [reflexivity|]. cbn [app total_control]. rewrite IH. lia. Qed.
Lemma total_control_rev l vs c : total_control (rev l) vs c = total_control l vs c.
Proof. induction l as [|p r IH]; [reflexivity|]. cbn [rev total_control]. rewrite total_control_app, IH. cbn [total_control]. lia. Qed.
Lemma added_at_once_rev L l from to : added_at_once L (rev l) from to <-> added_at_once L l from to.
Proof. unfold added_at_once. split; intros [E H]; (split; [exact E|]); intros c Hc; specialize (H c Hc); now rewrite total_control_rev in *. Qed.

Lemma c_shift_values_length L l : forall vs, length (c_shift_values L l vs) = length vs.
Proof. induction l as [|p r IH]; intros vs; [reflexivity|]. cbn [c_shift_values fold_left]. change (fold_left _ r ?w) with (c_shift_values L r w). now rewrite IH, set_nth_length. Qed.
Lemma c_shift_values_nth D l c : 1 <= dL D -> Forall (fun p => snd p < dN D) l -> separate l -> forall vs, valid D vs -> c < dN D ->
  nth c (c_shift_values (dL D) l vs) 0 = (nth c vs 0 + total_control l vs c) mod dL D.
Proof.
  intros HL HF. induction HF as [|p r Ht HF IH]; intros Hs vs V Hc; cbn [total_control].
  - cbn. rewrite Nat.add_0_r, Nat.mod_small; [reflexivity|]. now apply nth_valid.
  - cbn [c_shift_values fold_left]. change (fold_left _ r ?w) with (c_shift_values (dL D) r w).
    rewrite IH; [|intros a b Ha Hb; apply Hs; now right|apply set_nth_valid; [exact V|apply Nat.mod_upper_bound; lia]|exact Hc].
    rewrite (total_control_ext r _ vs).
    2:{ intros q Hq. rewrite nth_set_nth by (rewrite (proj1 V); auto). destruct (Nat.eqb_spec (fst q) (snd p)) as [E|]; [|reflexivity].
        exfalso. apply (Hs q p); [now right|now left|exact E]. }
    rewrite nth_set_nth by (rewrite (proj1 V); auto). rewrite (Nat.eqb_sym c). destruct (Nat.eqb_spec (snd p) c) as [->|]; [|reflexivity].
    rewrite Nat.add_mod_idemp_l by lia. f_equal. lia.
Qed.
Lemma added_at_once_iff D l from to : 1 <= dL D -> Forall (fun p => snd p < dN D) l -> separate l -> valid D from -> valid D to ->
  (added_at_once (dL D) l from to <-> to = c_shift_values (dL D) l from).
Proof.
  intros HL HF Hs Vf Vt. split.
  - intros [El H]. apply (nth_ext _ _ 0 0); [now rewrite c_shift_values_length|]. intros c Hc. rewrite (c_shift_values_nth D) by (auto; rewrite <- (proj1 Vt); auto).
    apply H. congruence.
  - intros ->. split; [apply c_shift_values_length|]. intros c Hc. apply (c_shift_values_nth D); auto. now rewrite <- (proj1 Vf).
Qed.
Lemma Forall_rev' {A} (P : A -> Prop) l : Forall P l -> Forall P (rev l).
Proof. intros H. apply Forall_forall. intros x Hx. apply in_rev in Hx. rewrite Forall_forall in H. auto. Qed.

(** ** The nodes *)
Lemma shift_node D targets shifts nd : 1 <= dL D -> shift D (fresh_keys D) targets shifts = Some nd ->
  exists M, nd = NCustomFock M /\ Forall (fun p => snd p < dN D) (combine shifts targets) /\
    is_map D M (shift_values (dL D) (rev (combine shifts targets))) /\
    keeps_valid D (shift_values (dL D) (rev (combine shifts targets))) /\ inj_valid D (shift_values (dL D) (rev (combine shifts targets))).
Proof.
  intros HL E. unfold shift in E. cbv zeta in E. destruct (forallb _ _) eqn:Hb; [|discriminate]. destruct (product_of _ _) as [M|] eqn:EM; [|discriminate].
  injection E as <-. exists M. rewrite forallb_forall in Hb.
  assert (HF : forall p, In p (combine shifts targets) -> snd p < dN D) by (intros p Hp; apply Nat.ltb_lt; now apply Hb).
  split; [reflexivity|]. split; [now apply Forall_forall|]. unfold fresh_keys in EM. rewrite fresh_ov_keys in EM by auto. split.
  - apply (product_pairs D _ (pair_shift (dL D)) _ M HL) in EM; [exact EM|]. intros p Hp. split; [now apply pair_shift_valid|].
    apply (transition_map D (snd p) (fun input => shifted_by (dL D) (fst p) (nth (snd p) input 0)) HL (HF p Hp)). intros. now apply shifted_by_lt.
  - split.
    + apply (folded_valid D (pair_shift (dL D))). intros. now apply pair_shift_valid.
    + apply (folded_inj D (pair_shift (dL D))); [intros; now apply pair_shift_valid|]. intros p Hp. apply in_rev in Hp. apply pair_shift_inj; auto.
Qed.
Lemma c_shift_node D controls targets nd : 1 <= dL D -> c_shift D (fresh_keys D) controls targets = Some nd ->
  exists M, nd = NCustomFock M /\ Forall (fun p => fst p < dN D /\ snd p < dN D) (combine controls targets) /\
    is_map D M (c_shift_values (dL D) (rev (combine controls targets))) /\
    keeps_valid D (c_shift_values (dL D) (rev (combine controls targets))).
Proof.
  intros HL E. unfold c_shift in E. cbv zeta in E. destruct (forallb _ _) eqn:Hb; [|discriminate]. destruct (product_of _ _) as [M|] eqn:EM; [|discriminate].
  injection E as <-. exists M. rewrite forallb_forall in Hb.
  assert (HF : forall p, In p (combine controls targets) -> fst p < dN D /\ snd p < dN D).
  { intros p Hp. apply Hb in Hp. apply andb_prop in Hp. destruct Hp as [H1 H2]. apply Nat.ltb_lt in H1, H2. auto. }
  split; [reflexivity|]. split; [now apply Forall_forall|]. unfold fresh_keys in EM. rewrite fresh_ov_keys in EM by auto. split.
  - apply (product_pairs D _ (pair_add (dL D)) _ M HL) in EM.
    + intros o i Ho Hi. rewrite EM by auto. unfold fmat, on_index. now rewrite c_shift_values_pairs.
    + intros p Hp. split; [now apply pair_add_valid|].
      apply (transition_map D (snd p) (fun input => (nth (fst p) input 0 + nth (snd p) input 0) mod dL D) HL (proj2 (HF p Hp))). intros. apply Nat.mod_upper_bound. lia.
  - intros vs V. rewrite c_shift_values_pairs. apply (folded_valid D (pair_add (dL D))); [|exact V]. intros. now apply pair_add_valid.
Qed.
Lemma c_shift_inj D l : 1 <= dL D -> Forall (fun p => snd p < dN D /\ fst p <> snd p) l -> inj_valid D (c_shift_values (dL D) l).
Proof.
  intros HL HF us vs Vu Vv E. rewrite !c_shift_values_pairs in E. revert E. apply (folded_inj D (pair_add (dL D))); auto; [intros; now apply pair_add_valid|].
  intros p Hp. rewrite Forall_forall in HF. apply pair_add_inj; auto; apply HF; auto.
Qed.
Lemma is_map_unitary D M f : 1 <= dL D -> keeps_valid D f -> inj_valid D f -> is_map D M f -> unitary_mat (size_of_basis D) M.
Proof.
  intros HL Hk Hi HM. apply (unitary_ext _ (fmat (on_index D f))).
  - intros i j Hi' Hj'. symmetry. now apply HM.
  - apply fmat_unitary; [intros; now apply on_index_bound|]. intros i j. now apply on_index_inj.
Qed.

(** ** C39 *)

(** shift: every channel is increased by its shift modulo the length; the matrix is unitary. *)
Theorem C39_shift : forall D targets shifts nd, 1 <= dL D ->
  shift D (fresh_keys D) targets shifts = Some nd ->
  exists M, nd = NCustomFock M /\ moves D M (shifted (dL D) (combine shifts targets)) /\ unitary_mat (size_of_basis D) M.
Proof.
  intros D targets shifts nd HL E. destruct (shift_node D targets shifts nd HL E) as (M & -> & HF & HM & Hk & Hi).
  exists M. split; [reflexivity|]. split; [|eapply is_map_unitary; eauto].
  eapply is_map_moves; eauto. intros from to Vf Vt. rewrite <- shifted_rev. apply shifted_iff; auto. now apply Forall_rev'.
Qed.

(** c_shift: the control values are added to the targets, the last pair of the lists first; the
    matrix is unitary if no pair uses the same channel twice. *)
Theorem C39_c_shift : forall D controls targets nd, 1 <= dL D ->
  c_shift D (fresh_keys D) controls targets = Some nd ->
  exists M, nd = NCustomFock M /\ moves D M (added_in_turn (dL D) (rev (combine controls targets))) /\
    (Forall (fun p => fst p <> snd p) (combine controls targets) -> unitary_mat (size_of_basis D) M).
Proof.
  intros D controls targets nd HL E. destruct (c_shift_node D controls targets nd HL E) as (M & -> & HF & HM & Hk).
  assert (HF2 : Forall (fun p => snd p < dN D) (rev (combine controls targets))) by (apply Forall_rev'; eapply Forall_impl; [|exact HF]; intros p [_ H]; exact H).
  exists M. split; [reflexivity|]. split.
  - eapply is_map_moves; eauto. intros from to Vf Vt. now apply added_in_turn_iff.
  - intros Hd. apply (is_map_unitary D M (c_shift_values (dL D) (rev (combine controls targets)))); auto. apply c_shift_inj; auto.
    apply Forall_rev'. apply Forall_forall. intros p Hp. rewrite Forall_forall in HF, Hd. split; [apply HF; auto|now apply Hd].
Qed.

(** If no channel is both a control and a target, every target is increased by the sum of the
    values its controls had before. *)
Theorem C39_c_shift_separate : forall D controls targets nd, 1 <= dL D ->
  (forall p q, In p (combine controls targets) -> In q (combine controls targets) -> fst p <> snd q) ->
  c_shift D (fresh_keys D) controls targets = Some nd ->
  exists M, nd = NCustomFock M /\ moves D M (added_at_once (dL D) (combine controls targets)) /\ unitary_mat (size_of_basis D) M.
Proof.
  intros D controls targets nd HL Hs E. destruct (c_shift_node D controls targets nd HL E) as (M & -> & HF & HM & Hk).
  assert (HF2 : Forall (fun p => snd p < dN D) (rev (combine controls targets))) by (apply Forall_rev'; eapply Forall_impl; [|exact HF]; intros p [_ H]; exact H).
  exists M. split; [reflexivity|]. split.
  - eapply is_map_moves; eauto. intros from to Vf Vt. rewrite <- added_at_once_rev. apply added_at_once_iff; auto. now apply separate_rev.
  - apply (is_map_unitary D M (c_shift_values (dL D) (rev (combine controls targets)))); auto. apply c_shift_inj; auto.
    apply Forall_rev'. apply Forall_forall. intros p Hp. rewrite Forall_forall in HF. split; [apply HF; auto|now apply Hs].
Qed.

(** Both constructors accept every non-empty list of existing channels. *)
Theorem C39_accepted : forall D keys targets shifts controls,
  (combine shifts targets <> [] -> Forall (fun p => snd p < dN D) (combine shifts targets) ->
     exists nd, shift D keys targets shifts = Some nd) /\
  (combine controls targets <> [] -> Forall (fun p => fst p < dN D /\ snd p < dN D) (combine controls targets) ->
     exists nd, c_shift D keys controls targets = Some nd).
Proof.
  intros D keys targets shifts controls. split; intros Hne HF.
  - unfold shift. cbv zeta. replace (forallb _ _) with true.
    + destruct (combine shifts targets) as [|p r]; [contradiction|]. eexists. reflexivity.
    + symmetry. apply forallb_forall. rewrite Forall_forall in HF. intros p Hp. apply Nat.ltb_lt. now apply HF.
  - unfold c_shift. cbv zeta. replace (forallb _ _) with true.
    + destruct (combine controls targets) as [|p r]; [contradiction|]. eexists. reflexivity.
    + symmetry. apply forallb_forall. rewrite Forall_forall in HF. intros p Hp. destruct (HF p Hp). apply andb_true_intro. split; now apply Nat.ltb_lt.
Qed.

(** ** Evaluation *)
Lemma evaluate_custom X rnd c k M f (R : values -> values -> Prop) cs cs' :
  1 <= dL (c_D c) -> k < length (c_nodes c) -> node_at c k = NCustomFock M ->
  keeps_valid (c_D c) f -> inj_valid (c_D c) f -> is_map (c_D c) M f ->
  (forall from to, valid (c_D c) from -> valid (c_D c) to -> (R from to <-> to = f from)) ->
  Forall (fun it => wf_state (c_D c) (snd it)) (co_items cs) ->
  evaluate_nodes X rnd c [k] cs = Ok cs' ->
  Forall2 (fun it it' => amplitudes_moved (c_D c) (c_eps c) R (snd it) (snd it')) (co_items cs) (co_items cs').
Proof.
  intros HL Hk En Hv Hi HM HR HW E. rewrite PropMeasure.evaluate_single in E by (auto; now rewrite En).
  unfold run_node in E. rewrite En in E. destruct (custom_items c rnd M (co_items cs) 0) as [[out sd]|] eqn:Ec; [|discriminate].
  cbn [option_map of_option fst] in E. injection E as <-. cbn [coll_of co_items].
  apply custom_items_inv in Ec. destruct Ec as [Em _]. cbn [map app] in Em. clear En Hk.
  revert out Em. induction HW as [|it l W HW IH]; intros [|[i' s'] out] Em; cbn [map] in Em; try discriminate; [constructor|].
  injection Em as E1 E2. constructor; [|now apply IH]. cbn [snd] in E1 |- *. rewrite E1. now apply (moved_by_matrix (c_D c) M f).
Qed.

Lemma direct_items_inv D ncl eps rnd f : forall its acc sd out sd',
  fold_left (fun (acc : option (items * nat)) (it : ident * state) =>
      match acc, copy_state eps ncl (snd it) with
      | Some (out, sd), Some st => Some (add_state_random rnd sd (with_comps st (renamed_components D f (s_comps (snd it)))) out)
      | _, _ => None
      end) its (Some (acc, sd)) = Some (out, sd') ->
  map snd out = map snd acc ++ map (fun it => with_comps (snd it) (renamed_components D f (s_comps (snd it)))) its.
Proof.
  induction its as [|[i st] its IH]; intros acc sd out sd' E; cbn [fold_left] in E.
  - injection E as <- <-. cbn [map]. now rewrite app_nil_r.
  - cbn [snd] in E. destruct (copy_state eps ncl st) as [st'|] eqn:Ec.
    2:{ exfalso. clear - E. induction its; cbn [fold_left] in E; [discriminate|auto]. }
    assert (st' = st) as -> by (unfold copy_state, make_state in Ec; destruct (check_state _ _ st); [now injection Ec|discriminate]).
    set (ns := with_comps st _) in E. destruct (add_state_random rnd sd ns acc) as [acc2 sd2] eqn:Ea.
    apply IH in E. assert (Ea' : acc2 = fst (add_state_random rnd sd ns acc)) by now rewrite Ea.
    rewrite E, Ea', add_state_random_app, map_app. cbn [map snd]. now rewrite <- app_assoc.
Qed.
Lemma evaluate_direct X rnd rnd' c k f (R : values -> values -> Prop) cs cs' :
  1 <= dL (co_D cs) -> k < length (c_nodes c) -> node_at c k = NFunction (direct_function rnd' f) ->
  keeps_valid (co_D cs) (f (dL (co_D cs))) -> inj_valid (co_D cs) (f (dL (co_D cs))) ->
  (forall from to, valid (co_D cs) from -> valid (co_D cs) to -> (R from to <-> to = f (dL (co_D cs)) from)) ->
  Forall (fun it => wf_state (co_D cs) (snd it)) (co_items cs) ->
  evaluate_nodes X rnd c [k] cs = Ok cs' ->
  Forall2 (fun it it' => amplitudes_moved (co_D cs) 0 R (snd it) (snd it') /\ state_norm2 (snd it') = state_norm2 (snd it)) (co_items cs) (co_items cs').
Proof.
  intros HL Hk En Hv Hi HR HW E. rewrite PropMeasure.evaluate_single in E by (auto; now rewrite En).
  unfold run_node in E. rewrite En in E. unfold direct_function in E. destruct (fold_left _ _ _) as [[out sd]|] eqn:Ec; [|discriminate].
  cbn [option_map of_option fst] in E. injection E as <-. cbn [with_items co_items].
  apply direct_items_inv in Ec. cbn [map app] in Ec. clear En Hk.
  revert out Ec. induction HW as [|it l W HW IH]; intros [|[i' s'] out] Em; cbn [map] in Em; try discriminate; [constructor|].
  injection Em as E1 E2. constructor; [|now apply IH]. cbn [snd] in E1 |- *. rewrite E1. now apply moved_by_renaming.
Qed.

(** Evaluating a shift node, in a circuit, on any collection. *)
Theorem C39_evaluate_shift : forall X rnd c k targets shifts nd cs cs',
  1 <= dL (c_D c) -> k < length (c_nodes c) -> shift (c_D c) (fresh_keys (c_D c)) targets shifts = Some nd -> node_at c k = nd ->
  Forall (fun it => wf_state (c_D c) (snd it)) (co_items cs) -> evaluate_nodes X rnd c [k] cs = Ok cs' ->
  Forall2 (fun it it' => amplitudes_moved (c_D c) (c_eps c) (shifted (dL (c_D c)) (combine shifts targets)) (snd it) (snd it')) (co_items cs) (co_items cs').
Proof.
  intros X rnd c k targets shifts nd cs cs' HL Hk E En HW Ev. destruct (shift_node (c_D c) targets shifts nd HL E) as (M & -> & HF & HM & Hv & Hi).
  eapply (evaluate_custom X rnd c k M); eauto. intros from to Vf Vt. rewrite <- shifted_rev. apply shifted_iff; auto. now apply Forall_rev'.
Qed.
Theorem C39_evaluate_c_shift : forall X rnd c k controls targets nd cs cs',
  1 <= dL (c_D c) -> k < length (c_nodes c) -> c_shift (c_D c) (fresh_keys (c_D c)) controls targets = Some nd -> node_at c k = nd ->
  Forall (fun p => fst p <> snd p) (combine controls targets) ->
  Forall (fun it => wf_state (c_D c) (snd it)) (co_items cs) -> evaluate_nodes X rnd c [k] cs = Ok cs' ->
  Forall2 (fun it it' => amplitudes_moved (c_D c) (c_eps c) (added_in_turn (dL (c_D c)) (rev (combine controls targets))) (snd it) (snd it')) (co_items cs) (co_items cs').
Proof.
  intros X rnd c k controls targets nd cs cs' HL Hk E En Hne HW Ev. destruct (c_shift_node (c_D c) controls targets nd HL E) as (M & -> & HF & HM & Hv).
  assert (HF2 : Forall (fun p => snd p < dN (c_D c)) (rev (combine controls targets))) by (apply Forall_rev'; eapply Forall_impl; [|exact HF]; intros p [_ H]; exact H).
  eapply (evaluate_custom X rnd c k M (c_shift_values (dL (c_D c)) (rev (combine controls targets)))); eauto.
  - apply c_shift_inj; auto. apply Forall_rev'. apply Forall_forall. intros p Hp. rewrite Forall_forall in HF, Hne. split; [apply HF; auto|now apply Hne].
  - intros from to Vf Vt. now apply added_in_turn_iff.
Qed.

(** ** C40 *)

(** The direct nodes: the first pair first. *)
Theorem C40_shift_direct : forall X rnd rnd' c k targets shifts cs cs', 1 <= dL (co_D cs) -> k < length (c_nodes c) ->
  node_at c k = shift_direct rnd' targets shifts -> Forall (fun p => snd p < dN (co_D cs)) (combine shifts targets) ->
  Forall (fun it => wf_state (co_D cs) (snd it)) (co_items cs) -> evaluate_nodes X rnd c [k] cs = Ok cs' ->
  Forall2 (fun it it' => amplitudes_moved (co_D cs) 0 (shifted (dL (co_D cs)) (combine shifts targets)) (snd it) (snd it') /\
     state_norm2 (snd it') = state_norm2 (snd it)) (co_items cs) (co_items cs').
Proof.
  intros X rnd rnd' c k targets shifts cs cs' HL Hk En HF HW Ev.
  eapply (evaluate_direct X rnd rnd' c k (fun L => shift_values L (combine shifts targets))); eauto.
  - apply (folded_valid (co_D cs) (pair_shift (dL (co_D cs)))). intros. now apply pair_shift_valid.
  - apply (folded_inj (co_D cs) (pair_shift (dL (co_D cs)))); [intros; now apply pair_shift_valid|]. intros p Hp. rewrite Forall_forall in HF. apply pair_shift_inj; auto.
  - intros from to Vf Vt. now apply shifted_iff.
Qed.
Theorem C40_c_shift_direct : forall X rnd rnd' c k controls targets cs cs', 1 <= dL (co_D cs) -> k < length (c_nodes c) ->
  node_at c k = c_shift_direct rnd' controls targets -> Forall (fun p => snd p < dN (co_D cs) /\ fst p <> snd p) (combine controls targets) ->
  Forall (fun it => wf_state (co_D cs) (snd it)) (co_items cs) -> evaluate_nodes X rnd c [k] cs = Ok cs' ->
  Forall2 (fun it it' => amplitudes_moved (co_D cs) 0 (added_in_turn (dL (co_D cs)) (combine controls targets)) (snd it) (snd it') /\
     state_norm2 (snd it') = state_norm2 (snd it)) (co_items cs) (co_items cs').
Proof.
  intros X rnd rnd' c k controls targets cs cs' HL Hk En HF HW Ev.
  assert (HF2 : Forall (fun p => snd p < dN (co_D cs)) (combine controls targets)) by (eapply Forall_impl; [|exact HF]; intros p [H _]; exact H).
  eapply (evaluate_direct X rnd rnd' c k (fun L => c_shift_values L (combine controls targets))); eauto.
  - intros vs V. rewrite c_shift_values_pairs. apply (folded_valid (co_D cs) (pair_add (dL (co_D cs)))); [|exact V]. intros. now apply pair_add_valid.
  - now apply c_shift_inj.
  - intros from to Vf Vt. now apply added_in_turn_iff.
Qed.

(** Two results of moving the same state along the same relation have the same amplitudes. *)
Lemma moved_same D eps f (R : values -> values -> Prop) st s1 s2 : 1 <= dL D -> keeps_valid D f -> inj_valid D f ->
  (forall from to, valid D from -> valid D to -> (R from to <-> to = f from)) ->
  (forall vs, valid D vs -> (eps <= Cnorm2 (amp_of D st vs))%R \/ amp_of D st vs = RtoC 0) ->
  amplitudes_moved D eps R st s1 -> amplitudes_moved D 0 R st s2 -> forall vs, valid D vs -> amp_of D s1 vs = amp_of D s2 vs.
Proof.
  intros HL Hk Hi HR He (_ & _ & H1 & _) (_ & _ & H2 & _) vs V. destruct (surj_valid D f HL Hk Hi vs V) as (from & Vf & <-).
  rewrite (H1 from), (H2 from); auto; try (now apply HR). left. apply Cnorm2_nonneg.
Qed.
Lemma moved_same_others D eps R st s1 s2 : amplitudes_moved D eps R st s1 -> amplitudes_moved D 0 R st s2 -> same_but_components s1 s2.
Proof. intros ((A1 & A2 & A3 & A4 & A5) & _) ((B1 & B2 & B3 & B4 & B5) & _). unfold same_but_components. repeat split; congruence. Qed.
Lemma Forall2_join {A B} (P Q : A -> B -> Prop) (S : B -> B -> Prop) (W : A -> Prop) l l1 l2 :
  Forall W l -> Forall2 P l l1 -> Forall2 Q l l2 -> (forall a b1 b2, W a -> P a b1 -> Q a b2 -> S b1 b2) -> Forall2 S l1 l2.
Proof.
  intros HW H1. revert l2. induction H1 as [|a b1 l l1 Hp H1 IH]; intros l2 H2 HS; inversion H2; subst; constructor; inversion HW; subst; eauto.
Qed.

Theorem C40_shift : forall X rnd rnd' c c' k k' targets shifts nd cs cs1 cs2,
  1 <= dL (c_D c) -> co_D cs = c_D c -> k < length (c_nodes c) -> k' < length (c_nodes c') ->
  shift (c_D c) (fresh_keys (c_D c)) targets shifts = Some nd -> node_at c k = nd -> node_at c' k' = shift_direct rnd' targets shifts ->
  Forall (fun it => wf_state (c_D c) (snd it) /\ above_threshold (c_D c) (c_eps c) (snd it)) (co_items cs) ->
  evaluate_nodes X rnd c [k] cs = Ok cs1 -> evaluate_nodes X rnd c' [k'] cs = Ok cs2 ->
  Forall2 (fun it1 it2 => same_state (c_D c) (snd it1) (snd it2)) (co_items cs1) (co_items cs2).
Proof.
  intros X rnd rnd' c c' k k' targets shifts nd cs cs1 cs2 HL ED Hk Hk' E En En' HW E1 E2.
  destruct (shift_node (c_D c) targets shifts nd HL E) as (M & _ & HF & _ & Hv & Hi).
  assert (HW' : Forall (fun it => wf_state (c_D c) (snd it)) (co_items cs)) by (eapply Forall_impl; [|exact HW]; intros it H; apply H).
  pose proof (C39_evaluate_shift X rnd c k targets shifts nd cs cs1 HL Hk E En HW' E1) as H1.
  pose proof (C40_shift_direct X rnd rnd' c' k' targets shifts cs cs2) as H2. rewrite ED in H2. specialize (H2 HL Hk' En' HF HW' E2).
  eapply Forall2_join; [exact HW|exact H1|exact H2|]. cbv beta. intros it i1 i2 [W Ha] A1 [A2 _]. split; [eapply moved_same_others; eauto|].
  eapply moved_same; eauto. intros from to Vf Vt. rewrite <- shifted_rev. apply shifted_iff; auto. now apply Forall_rev'.
Qed.

(** c_shift is c_shift_direct with both lists reversed. *)
Theorem C40_reversed : forall X rnd rnd' c c' k k' controls targets controls' targets' nd cs cs1 cs2,
  1 <= dL (c_D c) -> co_D cs = c_D c -> k < length (c_nodes c) -> k' < length (c_nodes c') ->
  Forall (fun p => fst p <> snd p) (combine controls targets) -> combine controls' targets' = rev (combine controls targets) ->
  c_shift (c_D c) (fresh_keys (c_D c)) controls targets = Some nd -> node_at c k = nd -> node_at c' k' = c_shift_direct rnd' controls' targets' ->
  Forall (fun it => wf_state (c_D c) (snd it) /\ above_threshold (c_D c) (c_eps c) (snd it)) (co_items cs) ->
  evaluate_nodes X rnd c [k] cs = Ok cs1 -> evaluate_nodes X rnd c' [k'] cs = Ok cs2 ->
  Forall2 (fun it1 it2 => same_state (c_D c) (snd it1) (snd it2)) (co_items cs1) (co_items cs2).
Proof.
  intros X rnd rnd' c c' k k' controls targets controls' targets' nd cs cs1 cs2 HL ED Hk Hk' Hne Hrev E En En' HW E1 E2.
  destruct (c_shift_node (c_D c) controls targets nd HL E) as (M & _ & HF & _ & Hv).
  assert (HW' : Forall (fun it => wf_state (c_D c) (snd it)) (co_items cs)) by (eapply Forall_impl; [|exact HW]; intros it H; apply H).
  assert (HB : Forall (fun p => snd p < dN (c_D c) /\ fst p <> snd p) (rev (combine controls targets))).
  { apply Forall_rev'. apply Forall_forall. intros p Hp. rewrite Forall_forall in HF, Hne. split; [apply HF; auto|now apply Hne]. }
  pose proof (C39_evaluate_c_shift X rnd c k controls targets nd cs cs1 HL Hk E En Hne HW' E1) as H1.
  pose proof (C40_c_shift_direct X rnd rnd' c' k' controls' targets' cs cs2) as H2. rewrite ED, Hrev in H2. specialize (H2 HL Hk' En' HB HW' E2).
  eapply Forall2_join; [exact HW|exact H1|exact H2|]. cbv beta. intros it i1 i2 [W Ha] A1 [A2 _]. split; [eapply moved_same_others; eauto|].
  eapply (moved_same (c_D c) (c_eps c) (c_shift_values (dL (c_D c)) (rev (combine controls targets)))); eauto; [now apply c_shift_inj|].
  intros from to Vf Vt. apply added_in_turn_iff; auto. eapply Forall_impl; [|exact HB]; intros p [H _]; exact H.
Qed.

(** If no channel is both a control and a target the two nodes agree for the same lists. *)
Theorem C40_separate_partial : forall X rnd rnd' c c' k k' controls targets nd cs cs1 cs2,
  1 <= dL (c_D c) -> co_D cs = c_D c -> k < length (c_nodes c) -> k' < length (c_nodes c') ->
  (forall p q, In p (combine controls targets) -> In q (combine controls targets) -> fst p <> snd q) ->
  c_shift (c_D c) (fresh_keys (c_D c)) controls targets = Some nd -> node_at c k = nd -> node_at c' k' = c_shift_direct rnd' controls targets ->
  Forall (fun it => wf_state (c_D c) (snd it) /\ above_threshold (c_D c) (c_eps c) (snd it)) (co_items cs) ->
  evaluate_nodes X rnd c [k] cs = Ok cs1 -> evaluate_nodes X rnd c' [k'] cs = Ok cs2 ->
  Forall2 (fun it1 it2 => same_state (c_D c) (snd it1) (snd it2)) (co_items cs1) (co_items cs2).
Proof.
  intros X rnd rnd' c c' k k' controls targets nd cs cs1 cs2 HL ED Hk Hk' Hs E En En' HW E1 E2.
  destruct (c_shift_node (c_D c) controls targets nd HL E) as (M & -> & HF & HM & Hv).
  assert (HW' : Forall (fun it => wf_state (c_D c) (snd it)) (co_items cs)) by (eapply Forall_impl; [|exact HW]; intros it H; apply H).
  assert (HB : Forall (fun p => snd p < dN (c_D c) /\ fst p <> snd p) (combine controls targets)).
  { apply Forall_forall. intros p Hp. rewrite Forall_forall in HF. split; [apply HF; auto|now apply Hs]. }
  assert (HT : Forall (fun p => snd p < dN (c_D c)) (combine controls targets)) by (eapply Forall_impl; [|exact HB]; intros p [H _]; exact H).
  assert (HR1 : forall from to, valid (c_D c) from -> valid (c_D c) to ->
     (added_at_once (dL (c_D c)) (combine controls targets) from to <-> to = c_shift_values (dL (c_D c)) (rev (combine controls targets)) from)).
  { intros from to Vf Vt. rewrite <- added_at_once_rev. apply added_at_once_iff; auto; [now apply Forall_rev'|now apply separate_rev]. }
  assert (Hi : inj_valid (c_D c) (c_shift_values (dL (c_D c)) (rev (combine controls targets)))) by (apply c_shift_inj; auto; now apply Forall_rev').
  pose proof (evaluate_custom X rnd c k M _ _ cs cs1 HL Hk En Hv Hi HM HR1 HW' E1) as H1.
  assert (H2 : Forall2 (fun it it' => amplitudes_moved (c_D c) 0 (added_at_once (dL (c_D c)) (combine controls targets)) (snd it) (snd it') /\
     state_norm2 (snd it') = state_norm2 (snd it)) (co_items cs) (co_items cs2)).
  { rewrite <- ED. eapply (evaluate_direct X rnd rnd' c' k' (fun L => c_shift_values L (combine controls targets))); rewrite ?ED; eauto.
    - intros vs V. rewrite c_shift_values_pairs. apply (folded_valid (c_D c) (pair_add (dL (c_D c)))); [|exact V]. intros. now apply pair_add_valid.
    - now apply c_shift_inj.
    - intros from to Vf Vt. now apply added_at_once_iff. }
  eapply Forall2_join; [exact HW|exact H1|exact H2|]. cbv beta. intros it i1 i2 [W Ha] A1 [A2 _]. split; [eapply moved_same_others; eauto|].
  eapply moved_same; eauto.
Qed.

(** Evaluation of these nodes succeeds for every collection of states that can be copied. *)
Lemma custom_items_some c rnd M its : Forall (fun it : ident * state => check_state (c_eps c) (c_ncl c) (snd it) = true) its ->
  forall acc, exists r, fold_left (fun (acc : option (items * nat)) (it : ident * state) =>
      match acc, copy_state (c_eps c) (c_ncl c) (snd it) with
      | Some (out, sd), Some st =>
          let v := mat_vec (size_of_basis (c_D c)) M (state_vector (c_D c) (snd it)) in
          Some (add_state_random rnd sd (with_comps st (components_from_vector (c_D c) (c_eps c) v)) out)
      | _, _ => None
      end) its (Some acc) = Some r.
Proof.
  intros HF. induction HF as [|it l H HF IH]; intros [out sd]; [eexists; reflexivity|]. cbn [fold_left].
  unfold copy_state at 2, make_state. rewrite H. cbv zeta. destruct (IH (add_state_random rnd sd (with_comps (snd it) (components_from_vector (c_D c) (c_eps c)
    (mat_vec (size_of_basis (c_D c)) M (state_vector (c_D c) (snd it))))) out)) as (r & E). exists r. exact E.
Qed.
Lemma direct_items_some D ncl eps rnd f its : Forall (fun it : ident * state => check_state eps ncl (snd it) = true) its ->
  forall acc, exists r, fold_left (fun (acc : option (items * nat)) (it : ident * state) =>
      match acc, copy_state eps ncl (snd it) with
      | Some (out, sd), Some st => Some (add_state_random rnd sd (with_comps st (renamed_components D f (s_comps (snd it)))) out)
      | _, _ => None
      end) its (Some acc) = Some r.
Proof.
  intros HF. induction HF as [|it l H HF IH]; intros [out sd]; [eexists; reflexivity|]. cbn [fold_left].
  unfold copy_state at 2, make_state. rewrite H. destruct (IH (add_state_random rnd sd (with_comps (snd it) (renamed_components D f (s_comps (snd it)))) out)) as (r & E).
  exists r. exact E.
Qed.
Theorem C39_does_not_raise : forall X rnd c k M cs, k < length (c_nodes c) -> node_at c k = NCustomFock M ->
  Forall (fun it => check_state (c_eps c) (c_ncl c) (snd it) = true) (co_items cs) ->
  exists cs', evaluate_nodes X rnd c [k] cs = Ok cs'.
Proof.
  intros X rnd c k M cs Hk En HF. rewrite PropMeasure.evaluate_single by (auto; now rewrite En). unfold run_node. rewrite En.
  destruct (custom_items_some c rnd M (co_items cs) HF ([], 0)) as ([out sd] & E).
  assert (E' : custom_items c rnd M (co_items cs) 0 = Some (out, sd)) by exact E. rewrite E'. cbn. eexists. reflexivity.
Qed.
Theorem C40_does_not_raise : forall X rnd rnd' c k controls targets shifts cs, k < length (c_nodes c) ->
  node_at c k = c_shift_direct rnd' controls targets \/ node_at c k = shift_direct rnd' targets shifts ->
  Forall (fun it => check_state (co_eps cs) (co_ncl cs) (snd it) = true) (co_items cs) ->
  exists cs', evaluate_nodes X rnd c [k] cs = Ok cs'.
Proof.
  intros X rnd rnd' c k controls targets shifts cs Hk En HF.
  assert (exists f, node_at c k = NFunction (direct_function rnd' f)) as (f & E).
  { destruct En as [->| ->]; eexists; reflexivity. }
  rewrite PropMeasure.evaluate_single by (auto; now rewrite E). unfold run_node. rewrite E. unfold direct_function.
  destruct (direct_items_some (co_D cs) (co_ncl cs) (co_eps cs) rnd' (f (dL (co_D cs))) (co_items cs) HF ([], 0)) as ([out sd] & E').
  match goal with |- context[fold_left ?F (co_items cs) (Some ([], 0))] => replace (fold_left F (co_items cs) (Some ([], 0))) with (Some (out, sd)) by (symmetry; exact E') end.
  cbn. eexists. reflexivity.
Qed.

(** The same channel as control and target is accepted, and the matrix is not unitary. *)
Theorem C39_same_channel_refuted : exists D controls targets M, dims_ok D = true /\
  c_shift D (fresh_keys D) controls targets = Some (NCustomFock M) /\ ~ unitary_mat (size_of_basis D) M.
Proof.
  assert (HL : 1 <= dL (Dims 2 2 true)) by (cbn; lia).
  destruct (c_shift (Dims 2 2 true) (fresh_keys (Dims 2 2 true)) [0] [0]) as [nd|] eqn:E; [|discriminate E].
  destruct (c_shift_node (Dims 2 2 true) [0] [0] nd HL E) as (M & -> & _ & HM & _).
  exists (Dims 2 2 true), [0], [0], M. split; [reflexivity|]. split; [exact E|]. intros U.
  destruct (U 0 1) as [_ U2]; [cbn; lia|cbn; lia|]. rewrite (Csum_single _ 0) in U2.
  - rewrite !HM in U2 by (cbn; lia). cbn in U2. rewrite Cconj_RtoC, Cmult_1_l in U2. apply (f_equal fst) in U2. cbn in U2. lra.
  - apply seq_NoDup.
  - apply in_seq. cbn. lia.
  - intros x Hx Hne. apply in_seq in Hx. rewrite !HM by (cbn in *; lia). unfold fmat. cbn [on_index]. replace (on_index _ _ 0) with 0 by reflexivity.
    apply Nat.eqb_neq in Hne. rewrite Hne, Cconj_RtoC. apply Cmult_0_l.
Qed.

(** Empty lists: shift and c_shift raise, the direct versions do not. *)
Theorem C39_empty_refuted : forall D keys, shift D keys [] [] = None /\ c_shift D keys [] [] = None.
Proof. intros. split; reflexivity. Qed.

Definition photon_in_0 : state := State [120] 1 [([1;0;0], (RtoC 1, 1%R))] [0%R] [] [].
Definition photon_in_0_input : coll := Coll (Dims 2 3 true) 1 0 [([97], photon_in_0)].
Lemma photon_in_0_wf : wf_state (Dims 2 3 true) photon_in_0.
Proof.
  split; cbn [photon_in_0 s_comps map fst].
  - constructor; [intros []|constructor].
  - intros nm [<-|[]]. exists [1;0;0]. split; [|reflexivity]. split; [reflexivity|]. repeat constructor.
Qed.
Lemma photon_in_0_check : check_state 0 1 photon_in_0 = true.
Proof.
  unfold check_state, photon_in_0, Rltb. cbn [s_cum s_comps s_classical forallb snd length Nat.eqb].
  repeat (destruct (Rlt_dec _ _); [lra|]). reflexivity.
Qed.

(** Chained pairs: the control of the second pair is the target of the first. *)
Theorem C40_refuted : forall X rnd rnd', exists D controls targets nd c c' cs cs1 cs2 i1 i2 s1 s2,
  co_D cs = D /\ c_D c = D /\ c_D c' = D /\ c_shift D (fresh_keys D) controls targets = Some nd /\
  c_nodes c = [nd] /\ c_nodes c' = [c_shift_direct rnd' controls targets] /\
  Forall (fun p => fst p <> snd p) (combine controls targets) /\
  evaluate_circuit X rnd c cs = Ok cs1 /\ evaluate_circuit X rnd c' cs = Ok cs2 /\
  co_items cs1 = [(i1, s1)] /\ co_items cs2 = [(i2, s2)] /\
  amp_of D s1 [1;1;0] = RtoC 1 /\ amp_of D s1 [1;1;1] = RtoC 0 /\ amp_of D s2 [1;1;0] = RtoC 0 /\ amp_of D s2 [1;1;1] = RtoC 1.
Proof.
  intros X rnd rnd'. set (D := Dims 2 3 true). assert (HL : 1 <= dL D) by (cbn; lia).
  destruct (c_shift D (fresh_keys D) [0;1] [1;2]) as [nd|] eqn:E; [|discriminate E].
  set (c := Circuit D 1 0 false (fresh_keys D) [nd]). set (c' := Circuit D 1 0 false (fresh_keys D) [c_shift_direct rnd' [0;1] [1;2]]).
  destruct (c_shift_node D [0;1] [1;2] nd HL E) as (M & EM & _).
  assert (HC : Forall (fun it : ident * state => check_state 0 1 (snd it) = true) (co_items photon_in_0_input)) by (constructor; [apply photon_in_0_check|constructor]).
  assert (HW : Forall (fun it : ident * state => wf_state D (snd it)) (co_items photon_in_0_input)) by (apply Forall_cons; [apply photon_in_0_wf|apply Forall_nil]).
  assert (HN : Forall (fun p : nat * nat => fst p <> snd p) (combine [0;1] [1;2])) by (repeat constructor; discriminate).
  destruct (C39_does_not_raise X rnd c 0 M photon_in_0_input) as (cs1 & E1); [cbn; lia|now rewrite <- EM|exact HC|].
  destruct (C40_does_not_raise X rnd rnd' c' 0 [0;1] [1;2] [] photon_in_0_input) as (cs2 & E2); [cbn; lia|now left|exact HC|].
  pose proof (C39_evaluate_c_shift X rnd c 0 [0;1] [1;2] nd photon_in_0_input cs1 HL) as H1.
  specialize (H1 ltac:(cbn; lia) E eq_refl HN HW E1).
  pose proof (C40_c_shift_direct X rnd rnd' c' 0 [0;1] [1;2] photon_in_0_input cs2 HL) as H2.
  assert (HB : Forall (fun p : nat * nat => snd p < dN (co_D photon_in_0_input) /\ fst p <> snd p) (combine [0;1] [1;2])) by (repeat constructor; try discriminate; cbn; lia).
  specialize (H2 ltac:(cbn; lia) eq_refl HB HW E2).
  assert (V : forall a b d, a < 2 -> b < 2 -> d < 2 -> valid D [a;b;d]) by (intros; split; [reflexivity|]; do 3 (apply Forall_cons; [assumption|]); apply Forall_nil).
  clear EM. inversion H1 as [|x [i1 s1] l l1 (_ & _ & K1 & K2) T1 Ex EL1]; subst. inversion T1; subst.
  inversion H2 as [|y [i2 s2] m m1 ((_ & _ & G1 & G2) & _) T2 Ey EL2]; subst. inversion T2; subst.
  exists D, [0;1], [1;2], nd, c, c', photon_in_0_input, cs1, cs2, i1, i2, s1, s2.
  do 7 (split; [reflexivity || exact E || exact HN|]). split; [exact E1|]. split; [exact E2|]. do 2 (split; [now symmetry|]).
  assert (F1 : forall a b d a' b' d', a < 2 -> b < 2 -> d < 2 -> a' < 2 -> b' < 2 -> d' < 2 ->
    [a';b';d'] = c_shift_values 2 (rev (combine [0;1] [1;2])) [a;b;d] -> amp_of D s1 [a';b';d'] = amp_of D photon_in_0 [a;b;d]).
  { intros a b d a' b' d' ? ? ? ? ? ? Eq. apply K1; [now apply V|now apply V| |left; apply Cnorm2_nonneg].
    apply (added_in_turn_iff D); auto. repeat constructor. }
  assert (F2 : forall a b d a' b' d', a < 2 -> b < 2 -> d < 2 -> a' < 2 -> b' < 2 -> d' < 2 ->
    [a';b';d'] = c_shift_values 2 (combine [0;1] [1;2]) [a;b;d] -> amp_of D s2 [a';b';d'] = amp_of D photon_in_0 [a;b;d]).
  { intros a b d a' b' d' ? ? ? ? ? ? Eq. apply G1; [now apply V|now apply V| |left; apply Cnorm2_nonneg].
    apply (added_in_turn_iff D); auto. repeat constructor. }
  split; [rewrite (F1 1 0 0); auto; reflexivity|]. split; [rewrite (F1 1 0 1); auto; reflexivity|].
  split; [rewrite (F2 1 0 1); auto; reflexivity|rewrite (F2 1 0 0); auto; reflexivity].
Qed.

(** Non-trivial cases of the hypotheses. *)
Example C39_case : (exists nd, shift (Dims 3 4 true) (fresh_keys (Dims 3 4 true)) [2;0] [4%Z;(-1)%Z] = Some nd) /\
  shifted 3 (combine [4%Z;(-1)%Z] [2;0]) [0;1;2;0] [2;1;0;0] /\
  (exists nd, c_shift (Dims 3 4 true) (fresh_keys (Dims 3 4 true)) [0;0] [1;3] = Some nd) /\
  added_in_turn 3 (rev (combine [0;0] [1;3])) [2;2;0;0] [2;1;0;2].
Proof.
  split; [apply (proj1 (C39_accepted (Dims 3 4 true) (fresh_keys (Dims 3 4 true)) [2;0] [4%Z;(-1)%Z] [])); [discriminate|repeat constructor]|]. split.
  { split; [reflexivity|]. intros c Hc. do 4 (destruct c as [|c]; [reflexivity|]). cbn in Hc. lia. }
  split; [apply (proj2 (C39_accepted (Dims 3 4 true) (fresh_keys (Dims 3 4 true)) [1;3] [] [0;0])); [discriminate|repeat constructor]|].
  apply (added_in_turn_iff (Dims 3 4 true)); [cbn; lia|repeat constructor| |reflexivity].
  split; [reflexivity|repeat constructor].
Qed.

Example C40_case : forall X rnd rnd', let D := Dims 2 3 true in exists nd cs1 cs2,
  (forall p q, In p (combine [0;0] [1;2]) -> In q (combine [0;0] [1;2]) -> fst p <> snd q) /\
  c_shift D (fresh_keys D) [0;0] [1;2] = Some nd /\ Forall (fun it => wf_state D (snd it) /\ above_threshold D 0 (snd it)) (co_items photon_in_0_input) /\
  evaluate_nodes X rnd (Circuit D 1 0 false (fresh_keys D) [nd]) [0] photon_in_0_input = Ok cs1 /\
  evaluate_nodes X rnd (Circuit D 1 0 false (fresh_keys D) [c_shift_direct rnd' [0;0] [1;2]]) [0] photon_in_0_input = Ok cs2.
Proof.
  intros X rnd rnd' D. assert (HL : 1 <= dL D) by (cbn; lia). destruct (c_shift D (fresh_keys D) [0;0] [1;2]) as [nd|] eqn:E; [|discriminate E].
  destruct (c_shift_node D [0;0] [1;2] nd HL E) as (M & EM & _).
  assert (HC : Forall (fun it : ident * state => check_state 0 1 (snd it) = true) (co_items photon_in_0_input)) by (constructor; [apply photon_in_0_check|constructor]).
  destruct (C39_does_not_raise X rnd (Circuit D 1 0 false (fresh_keys D) [nd]) 0 M photon_in_0_input) as (cs1 & E1); [cbn; lia|now rewrite <- EM|exact HC|].
  destruct (C40_does_not_raise X rnd rnd' (Circuit D 1 0 false (fresh_keys D) [c_shift_direct rnd' [0;0] [1;2]]) 0 [0;0] [1;2] [] photon_in_0_input) as (cs2 & E2); [cbn; lia|now left|exact HC|].
  exists nd, cs1, cs2. split; [intros p q [<-|[<-|[]]] [<-|[<-|[]]]; discriminate|]. split; [reflexivity|]. split; [|split; assumption].
  apply Forall_cons; [|constructor]. split; [apply photon_in_0_wf|]. intros vs _. left. apply Cnorm2_nonneg.
Qed.

(** ** C45 *)
Example C45_case : exists nd, channel_coupling (Dims 3 3 true) (fresh_keys (Dims 3 3 true)) (1/3) [0;2] [1;0] = Some nd.
Proof. eexists. reflexivity. Qed.
Lemma coupling_matrix D s controls targets nd : channel_coupling D (fresh_keys D) s controls targets = Some nd ->
  exists M, nd = NCustomFock M /\ Forall (fun p => fst p < dN D /\ snd p < dN D) (combine controls targets) /\
    M = fold_left (mat_mul (size_of_basis D)) (map (fun p => coupling_entry D (fresh_keys D) s (fst p) (snd p)) (combine controls targets))
      (fun o i => if o =? i then RtoC 1 else RtoC 0).
Proof.
  unfold channel_coupling. cbv zeta. destruct (forallb _ _) eqn:Hb; [|discriminate]. intros E. injection E as <-. eexists. split; [reflexivity|]. split; [|reflexivity].
  apply Forall_forall. rewrite forallb_forall in Hb. intros p Hp. apply Hb in Hp. apply andb_prop in Hp. destruct Hp as [H1 H2]. apply Nat.ltb_lt in H1, H2. auto.
Qed.
Lemma identity_map D : 1 <= dL D -> is_map D (fun o i => if o =? i then RtoC 1 else RtoC 0) (fun vs => vs).
Proof. intros HL o i Ho Hi. unfold fmat, on_index. now rewrite index_values_roundtrip. Qed.

(** A value of the control channel other than 0 moves the tuple. *)
Lemma pair_add_fixed D p vs : 1 <= dL D -> fst p < dN D -> snd p < dN D -> valid D vs -> (pair_add (dL D) p vs = vs <-> nth (fst p) vs 0 = 0).
Proof.
  intros HL Hc Ht V. unfold pair_add. split.
  - intros E. apply (f_equal (fun l => nth (snd p) l 0)) in E. rewrite nth_set_nth, Nat.eqb_refl in E by (rewrite (proj1 V); auto).
    pose proof (nth_valid D vs (fst p) HL V) as B1. pose proof (nth_valid D vs (snd p) HL V) as B2.
    rewrite <- (Nat.mod_small (nth (snd p) vs 0) (dL D) B2) in E at 2. rewrite Nat.add_comm in E.
    apply (add_mod_inj (dL D) (nth (snd p) vs 0) (nth (fst p) vs 0) 0); auto; try lia. rewrite E. f_equal. lia.
  - intros E. rewrite E. cbn [Nat.add]. rewrite Nat.mod_small by now apply nth_valid.
    apply (nth_ext _ _ 0 0); [apply set_nth_length|]. intros k Hk. rewrite nth_set_nth by (rewrite (proj1 V); auto). destruct (Nat.eqb_spec k (snd p)) as [->|]; reflexivity.
Qed.
Lemma coupling_entry_spec D s p from to : 1 <= dL D -> fst p < dN D -> snd p < dN D -> valid D from -> valid D to ->
  coupling_entry D (fresh_keys D) s (fst p) (snd p) (index_of_values D to) (index_of_values D from) =
    if list_eq_dec Nat.eq_dec to (pair_add (dL D) p from)
    then if list_eq_dec Nat.eq_dec to from then RtoC 1 else RtoC (sqrt s)
    else if list_eq_dec Nat.eq_dec to from then RtoC (sqrt (1 - s)) else RtoC 0.
Proof.
  intros HL Hc Ht Vf Vt. unfold coupling_entry. cbv zeta. unfold fresh_keys. rewrite fresh_ov_keys by auto.
  rewrite !nth_all_values by now apply index_of_values_bound. rewrite !values_index_roundtrip by auto.
  pose proof (agree_except_spec (dN D) (snd p) from to ((nth (fst p) from 0 + nth (snd p) from 0) mod dL D) (proj1 Vf) (proj1 Vt) Ht) as HS.
  change (set_nth from (snd p) _) with (pair_add (dL D) p from) in HS.
  assert (HI : (index_of_values D from =? index_of_values D to) = if list_eq_dec Nat.eq_dec to from then true else false).
  { destruct (list_eq_dec Nat.eq_dec to from) as [->|Hne]; [apply Nat.eqb_refl|]. apply Nat.eqb_neq. intros E. apply Hne. symmetry. apply (index_of_values_inj D); auto. }
  rewrite HI. destruct (agree_except _ _ _ _ && _), (list_eq_dec Nat.eq_dec to (pair_add (dL D) p from)), (list_eq_dec Nat.eq_dec to from);
    try reflexivity; exfalso; try (apply n; now apply HS); try (apply Bool.diff_false_true; now apply HS); try (apply n0; now apply HS).
Qed.

(** One pair: the coupling is what the strength says. *)
Theorem C45_one_pair : forall D s control target nd, 1 <= dL D ->
  channel_coupling D (fresh_keys D) s [control] [target] = Some nd ->
  exists M, nd = NCustomFock M /\ couples D M s control target.
Proof.
  intros D s control target nd HL E. destruct (coupling_matrix D s [control] [target] nd E) as (M & -> & HF & EM). exists M. split; [reflexivity|].
  inversion HF as [|p l [Hc Ht] _ E1]; subst p l. cbn [combine] in *. cbn [fst snd] in Hc, Ht. clear E HF.
  assert (HE : forall from to, valid D from -> valid D to -> M (index_of_values D to) (index_of_values D from) =
    coupling_entry D (fresh_keys D) s control target (index_of_values D to) (index_of_values D from)).
  { intros from to Vf Vt. rewrite EM. cbn [map fold_left fst snd]. unfold mat_mul at 1. rewrite Csum_delta by now apply index_of_values_bound. reflexivity. }
  intros from to Vf Vt. cbv zeta. rewrite HE by auto. rewrite (coupling_entry_spec D s (control, target)) by auto.
  pose proof (pair_add_fixed D (control, target) from HL Hc Ht Vf) as HX. cbn [fst] in HX.
  split.
  - intros H0. apply HX in H0. rewrite H0. destruct (list_eq_dec _ _ _); reflexivity.
  - intros Hne. assert (HY : pair_add (dL D) (control, target) from <> from) by (intros H; apply Hne; now apply HX). split; [|split].
    + intros ->. destruct (list_eq_dec Nat.eq_dec from (pair_add (dL D) (control, target) from)) as [H|]; [congruence|].
      destruct (list_eq_dec Nat.eq_dec from from); congruence.
    + intros H. apply (added_iff D (control, target)) in H; auto. subst to. destruct (list_eq_dec _ _ _); [|congruence]. destruct (list_eq_dec _ _ _); [congruence|reflexivity].
    + intros H1 H2. destruct (list_eq_dec Nat.eq_dec to (pair_add _ _ _)) as [E|]; [exfalso; apply H2; now apply (added_iff D (control, target))|].
      destruct (list_eq_dec Nat.eq_dec to from); [contradiction|reflexivity].
Qed.

Lemma coupling_entry_map D s p : 1 <= dL D -> fst p < dN D -> snd p < dN D -> s = 0%R \/ s = 1%R ->
  is_map D (coupling_entry D (fresh_keys D) s (fst p) (snd p)) (if Req_EM_T s 1 then pair_add (dL D) p else fun vs => vs).
Proof.
  intros HL Hc Ht Hs o i Ho Hi. rewrite <- (index_values_roundtrip D o), <- (index_values_roundtrip D i) by auto.
  pose proof (values_from_index_valid D i HL) as Vi. pose proof (values_from_index_valid D o HL) as Vo.
  rewrite (coupling_entry_spec D s p) by auto. unfold fmat, on_index. rewrite !values_index_roundtrip by auto.
  assert (HQ : forall us vs, valid D us -> valid D vs -> (index_of_values D us =? index_of_values D vs) = if list_eq_dec Nat.eq_dec us vs then true else false).
  { intros us vs Hu Hv. destruct (list_eq_dec Nat.eq_dec us vs) as [->|Hne]; [apply Nat.eqb_refl|]. apply Nat.eqb_neq. intros E. apply Hne. apply (index_of_values_inj D); auto. }
  set (from := values_from_index D i) in *. set (to := values_from_index D o) in *.
  destruct Hs as [->| ->].
  - destruct (Req_EM_T 0 1) as [H|_]; [lra|]. rewrite HQ by auto. rewrite sqrt_0, Rminus_0_r, sqrt_1. now destruct (list_eq_dec _ _ _), (list_eq_dec _ _ _).
  - destruct (Req_EM_T 1 1) as [_|H]; [|lra]. rewrite HQ by (auto; now apply pair_add_valid). rewrite sqrt_1. replace (1 - 1)%R with 0%R by ring. rewrite sqrt_0.
    now destruct (list_eq_dec _ _ _), (list_eq_dec _ _ _).
Qed.

(** Strength 1 is c_shift, strength 0 changes nothing. *)
Theorem C45_full_and_none : forall D s controls targets nd, 1 <= dL D ->
  channel_coupling D (fresh_keys D) s controls targets = Some nd -> exists M, nd = NCustomFock M /\
  (s = 1%R -> moves D M (added_in_turn (dL D) (rev (combine controls targets)))) /\
  (s = 0%R -> moves D M (fun from to => to = from)).
Proof.
  intros D s controls targets nd HL E. destruct (coupling_matrix D s controls targets nd E) as (M & -> & HF & EM). exists M. split; [reflexivity|]. clear E.
  set (step := fun (p : nat * nat) => if Req_EM_T s 1 then pair_add (dL D) p else fun vs : values => vs).
  assert (HM : s = 0%R \/ s = 1%R -> is_map D M (fun vs => fold_left (fun w p => step p w) (rev (combine controls targets)) vs)).
  { intros Hs. rewrite EM. pose proof (product_map D (map (fun p => (coupling_entry D (fresh_keys D) s (fst p) (snd p), step p)) (combine controls targets)) HL) as HP.
    rewrite map_map in HP. cbn [fst] in HP. intros o i Ho Hi. rewrite HP with (f0 := fun vs => vs); auto.
    - unfold fmat, on_index. replace (fold_right _ (values_from_index D i) (map _ (combine controls targets)))
        with (fold_left (fun w p => step p w) (rev (combine controls targets)) (values_from_index D i)); [reflexivity|].
      rewrite <- fold_right_rev'. generalize (values_from_index D i). clear. intros vs. induction (combine controls targets) as [|p r IH]; [reflexivity|].
      cbn [map fold_right snd]. now rewrite IH.
    - apply Forall_forall. intros x Hx. apply in_map_iff in Hx. destruct Hx as (p & <- & Hp). cbn [fst snd]. rewrite Forall_forall in HF. destruct (HF p Hp).
      split; [|now apply coupling_entry_map]. unfold step. destruct (Req_EM_T s 1); [now apply pair_add_valid|]. intros vs V; exact V.
    - now apply identity_map. }
  assert (HF2 : Forall (fun p => snd p < dN D) (rev (combine controls targets))) by (apply Forall_rev'; eapply Forall_impl; [|exact HF]; intros p [_ H]; exact H).
  split; intros Hs.
  - eapply (is_map_moves D M (c_shift_values (dL D) (rev (combine controls targets)))); auto.
    + intros vs V. rewrite c_shift_values_pairs. apply (folded_valid D (pair_add (dL D))); [|exact V]. intros. now apply pair_add_valid.
    + intros o i Ho Hi. rewrite (HM (or_intror Hs)) by auto. unfold fmat, on_index. rewrite c_shift_values_pairs. unfold step. destruct (Req_EM_T s 1); [reflexivity|contradiction].
    + intros from to Vf Vt. now apply added_in_turn_iff.
  - eapply (is_map_moves D M (fun vs => vs)); auto; [intros vs V; exact V| |reflexivity].
    intros o i Ho Hi. rewrite (HM (or_introl Hs)) by auto. unfold fmat, on_index. replace (fold_left _ _ (values_from_index D i)) with (values_from_index D i); [reflexivity|].
    unfold step. destruct (Req_EM_T s 1) as [H|_]; [lra|]. clear. induction (rev (combine controls targets)) as [|p r IH]; [reflexivity|]. exact IH.
Qed.

(** Between 0 and 1 the gate is never unitary, whatever the sizes and the channels. *)
Theorem C45_unitary_refuted : forall D s control target, 2 <= dL D -> control < dN D -> target < dN D -> control <> target -> (0 < s < 1)%R ->
  exists M, channel_coupling D (fresh_keys D) s [control] [target] = Some (NCustomFock M) /\ ~ unitary_mat (size_of_basis D) M.
Proof.
  intros D s control target HL2 Hc Ht Hct Hs. assert (HL : 1 <= dL D) by lia.
  destruct (channel_coupling D (fresh_keys D) s [control] [target]) as [nd|] eqn:E.
  2:{ unfold channel_coupling in E. cbn [combine forallb fst snd] in E. apply Nat.ltb_lt in Hc, Ht. rewrite Hc, Ht in E. discriminate E. }
  destruct (C45_one_pair D s control target nd HL E) as (M & -> & HM). exists M. split; [reflexivity|]. intros U. clear E.
  set (from := set_nth (repeat 0 (dN D)) control 1).
  assert (Hrep : forall k, nth k (repeat 0 (dN D)) 0 = 0) by (intros k; apply nth_repeat).
  assert (V0 : valid D (repeat 0 (dN D))) by (split; [apply repeat_length|]; apply Forall_forall; intros x Hx; apply repeat_spec in Hx; lia).
  assert (Vf : valid D from) by (apply set_nth_valid; auto).
  set (to := pair_add (dL D) (control, target) from).
  assert (Vt : valid D to) by now apply pair_add_valid.
  assert (Fc : nth control from 0 = 1) by (unfold from; rewrite nth_set_nth; [now rewrite Nat.eqb_refl|now rewrite repeat_length]).
  assert (Tc : nth control to 0 = 1).
  { unfold to, pair_add. cbn [fst snd]. rewrite nth_set_nth by (rewrite (proj1 Vf); auto). apply Nat.eqb_neq in Hct. rewrite Hct. exact Fc. }
  assert (Hne : to <> from).
  { intros H. apply (pair_add_fixed D (control, target) from HL Hc Ht Vf) in H. cbn [fst] in H. lia. }
  assert (Hadd : added (dL D) control target from to) by (apply (added_iff D (control, target)); auto).
  assert (HR : forall i j, i < size_of_basis D -> j < size_of_basis D -> exists r, (0 <= r)%R /\ M i j = RtoC r).
  { intros i j Hi Hj. rewrite <- (index_values_roundtrip D i), <- (index_values_roundtrip D j) by auto.
    destruct (HM (values_from_index D j) (values_from_index D i)) as [H1 H2]; try now apply values_from_index_valid.
    set (us := values_from_index D i) in *. set (vs := values_from_index D j) in *.
    destruct (Nat.eq_dec (nth control vs 0) 0) as [Hz|Hz].
    - rewrite (H1 Hz). destruct (list_eq_dec _ _ _); eexists; (split; [|reflexivity]); lra.
    - destruct (H2 Hz) as (G1 & G2 & G3). destruct (list_eq_dec Nat.eq_dec us vs) as [Eq|Nq]; [rewrite (G1 Eq); eexists; split; [|reflexivity]; apply sqrt_pos|].
      destruct (list_eq_dec Nat.eq_dec us (pair_add (dL D) (control, target) vs)) as [Eq|Nq'].
      + rewrite G2; [eexists; split; [|reflexivity]; apply sqrt_pos|]. apply (added_iff D (control, target)); auto. now apply values_from_index_valid.
      + exists 0%R. split; [lra|]. apply G3; auto. intros H. apply Nq'. apply (added_iff D (control, target)) in H; auto. now apply values_from_index_valid. }
  destruct (U (index_of_values D from) (index_of_values D to)) as [_ U2]; try now apply index_of_values_bound.
  assert (Hij : (index_of_values D from =? index_of_values D to) = false).
  { apply Nat.eqb_neq. intros H. apply Hne. symmetry. apply (index_of_values_inj D); auto. }
  rewrite Hij in U2.
  set (re := fun i j => fst (M i j)).
  assert (HR' : forall i j, i < size_of_basis D -> j < size_of_basis D -> (0 <= re i j)%R /\ M i j = RtoC (re i j)).
  { intros i j Hi Hj. destruct (HR i j Hi Hj) as (r & H0 & H1). unfold re. rewrite H1. auto. }
  rewrite (Csum_ext _ _ (fun k => RtoC (re k (index_of_values D from) * re k (index_of_values D to))%R)) in U2.
  2:{ intros k Hk. apply in_seq in Hk. destruct (HR' k (index_of_values D from)) as [_ ->]; try lia; [now apply index_of_values_bound|].
      destruct (HR' k (index_of_values D to)) as [_ ->]; try lia; [now apply index_of_values_bound|]. unfold re. rewrite Cconj_RtoC. rewrite <- RtoC_mult. reflexivity. }
  rewrite Csum_RtoC in U2. apply RtoC_inj in U2.
  assert (Hle := MeasureProofs.Rsum_le_term (seq 0 (size_of_basis D)) (fun k => re k (index_of_values D from) * re k (index_of_values D to))%R (index_of_values D to)).
  cbv beta in Hle. rewrite U2 in Hle.
  assert (re (index_of_values D to) (index_of_values D from) = sqrt s) as R1.
  { unfold re. destruct (HM from to Vf Vt) as [_ H]. destruct (H ltac:(lia)) as (_ & H' & _). rewrite H'; auto. }
  assert (re (index_of_values D to) (index_of_values D to) = sqrt (1 - s)) as R2.
  { unfold re. destruct (HM to to Vt Vt) as [_ H]. destruct (H ltac:(lia)) as (H' & _ & _). rewrite H'; auto. }
  rewrite R1, R2 in Hle. assert (0 < sqrt s * sqrt (1 - s))%R by (apply Rmult_lt_0_compat; apply sqrt_lt_R0; lra).
  assert (sqrt s * sqrt (1 - s) <= 0)%R; [|lra]. apply Hle.
  - intros k Hk. apply in_seq in Hk. apply Rmult_le_pos; apply HR'; try lia; now apply index_of_values_bound.
  - apply in_seq. pose proof (index_of_values_bound D to Vt). lia.
Qed.
