(** Property theorems C42: Popescu-Rohrlich correlations. *)
From Coq Require Import Reals List Arith Lia Lra Bool Permutation.
From Coquelicot Require Import Complex.
From Verif Require Import Prelude NamesModel NamesSpec NamesProofs FockModel FockSpec FockProofs GateProofs StateModel StateSpec StateProofs
  ApplyProofs CollectionModel CollectionSpec EvalModel EvalSpec EvalProofs MeasureProofs WfProofs PropState PropEval PropReshape OperatorModel PropOperator PRModel PRSpec.
Import ListNotations.

(** ** Complex numbers *)
Lemma Cmod_sq z : (Cmod z * Cmod z = Cnorm2 z)%R.
Proof.
  unfold Cmod, Cnorm2. rewrite sqrt_sqrt; [cbn; ring|]. cbn. nra.
Qed.
Lemma Cnorm2_mult' a b : Cnorm2 (a * b)%C = (Cnorm2 a * Cnorm2 b)%R.
Proof. unfold Cnorm2. cbn. ring. Qed.
Lemma Cmod_pos z : z <> RtoC 0 -> (0 < Cmod z)%R.
Proof. apply Cmod_gt_0. Qed.
Lemma Cnorm2_0 z : Cnorm2 z = 0%R <-> z = RtoC 0.
Proof.
  split; [|intros ->; unfold Cnorm2; cbn; ring]. unfold Cnorm2. intros H. apply C_eq; cbn; nra.
Qed.
Lemma unit_of_norm z : Cmod (unit_of z) = 1%R.
Proof.
  unfold unit_of. destruct (Ceq_dec z (RtoC 0)) as [->|H]; [apply Cmod_1|]. apply Cmod_pos in H. rewrite Cmod_div.
  - rewrite Cmod_R, Rabs_right by lra. now apply Rinv_r; lra.
  - intros E. apply RtoC_inj in E. lra.
Qed.
Lemma unit_of_mult a b : a <> RtoC 0 -> b <> RtoC 0 -> unit_of (a * b)%C = (unit_of a * unit_of b)%C.
Proof.
  intros Ha Hb. unfold unit_of. destruct (Ceq_dec a _), (Ceq_dec b _); try contradiction. destruct (Ceq_dec (a * b)%C _) as [E|_].
  - exfalso. apply Cmult_neq_0 in E; auto.
  - rewrite Cmod_mult, RtoC_mult. apply Cmod_pos in Ha, Hb. field. split; intros E; apply RtoC_inj in E; lra.
Qed.
Lemma unit_of_pos (r : R) z : (0 < r)%R -> unit_of (RtoC r * z)%C = unit_of z.
Proof.
  intros Hr. unfold unit_of. destruct (Ceq_dec z _) as [->|Hz].
  - destruct (Ceq_dec _ _) as [_|H]; [reflexivity|]. exfalso. apply H. ring.
  - destruct (Ceq_dec _ _) as [E|_].
    + exfalso. revert E. apply Cmult_neq_0; [intros E; apply RtoC_inj in E; lra|exact Hz].
    + rewrite Cmod_mult, Cmod_R, Rabs_right, RtoC_mult by lra. apply Cmod_pos in Hz. field. split; intros E; apply RtoC_inj in E; lra.
Qed.
Lemma unit_of_unit u : Cmod u = 1%R -> unit_of u = u.
Proof.
  intros H. unfold unit_of. destruct (Ceq_dec u _) as [->|_]; [rewrite Cmod_0 in H; lra|]. rewrite H. field.
  intros E. apply RtoC_inj in E. lra.
Qed.
Lemma unit_times_mod z : (RtoC (Cmod z) * unit_of z)%C = z.
Proof.
  unfold unit_of. destruct (Ceq_dec z _) as [->|H]; [rewrite Cmod_0; ring|]. apply Cmod_pos in H. field. intros E. apply RtoC_inj in E. lra.
Qed.
Lemma Cmod_sqrt z : Cmod z = sqrt (Cnorm2 z).
Proof. unfold Cmod, Cnorm2. f_equal. cbn. ring. Qed.

(** ** argmax *)
Lemma argmax_spec {A} (f : A -> R) l : forall best, (argmax f best l = best \/ In (argmax f best l) l) /\
  (f best <= f (argmax f best l))%R /\ forall x, In x l -> (f x <= f (argmax f best l))%R.
Proof.
  induction l as [|y l IH]; intros best; cbn [argmax]; [split; [now left|]; split; [lra|intros x []]|].
  destruct (Rlt_dec (f best) (f y)) as [H|H].
  - destruct (IH y) as (I1 & I2 & I3). split; [right; destruct I1 as [->|]; [now left|now right]|]. split; [lra|]. intros x [<-|Hx]; [exact I2|now apply I3].
  - destruct (IH best) as (I1 & I2 & I3). split; [destruct I1 as [->|]; [now left|right; now right]|]. split; [exact I2|]. intros x [<-|Hx]; [lra|now apply I3].
Qed.
Lemma argmax_of_spec {A} (f : A -> R) l : l <> [] -> exists m, argmax_of f l = Some m /\ In m l /\ forall x, In x l -> (f x <= f m)%R.
Proof.
  destruct l as [|x l]; [contradiction|]. intros _. cbn [argmax_of]. exists (argmax f x l). destruct (argmax_spec f l x) as (H1 & H2 & H3).
  split; [reflexivity|]. split; [destruct H1 as [->|]; [now left|now right]|]. intros y [<-|Hy]; auto.
Qed.

Lemma Rsum_product {A B} (l : list A) (m : list B) f g : Rsum (list_prod l m) (fun x => f (fst x) * g (snd x))%R = (Rsum l f * Rsum m g)%R.
Proof.
  induction l as [|x l IH]; cbn [list_prod]; [unfold Rsum; cbn; ring|]. rewrite Rsum_app, IH, Rsum_cons. rewrite Rsum_map. cbn [fst snd]. rewrite Rsum_scal_l. ring.
Qed.

(** The decomposition of a product. *)
Lemma vector_from_product n rest M (alpha : nat -> C) (beta : list nat -> C) :
  (forall i w, i < n -> In w rest -> M i w = alpha i * beta w)%C ->
  (Rsum (seq 0 n) (fun i => Cnorm2 (alpha i)) <> 0)%R -> (Rsum rest (fun w => Cnorm2 (beta w)) <> 0)%R ->
  exists c v, vector_from_matrix n rest M = Some v /\ c <> RtoC 0 /\
    Cnorm2 c = (/ Rsum (seq 0 n) (fun i => Cnorm2 (alpha i)))%R /\ forall i, i < n -> v i = (c * alpha i)%C.
Proof.
  intros HM Ha Hb. set (a := Rsum (seq 0 n) (fun i => Cnorm2 (alpha i))) in *. set (b := Rsum rest (fun w => Cnorm2 (beta w))) in *.
  assert (Ha0 : (0 < a)%R) by (assert (0 <= a)%R by (apply Rsum_nonneg; intros; apply Cnorm2_nonneg); lra).
  assert (Hb0 : (0 < b)%R) by (assert (0 <= b)%R by (apply Rsum_nonneg; intros; apply Cnorm2_nonneg); lra).
  unfold vector_from_matrix. cbv zeta.
  assert (Hidx : forall x, In x (list_prod (seq 0 n) rest) -> fst x < n /\ In (snd x) rest).
  { intros [i w] H. apply in_prod_iff in H. destruct H as [H1 H2]. apply in_seq in H1. cbn. split; [lia|exact H2]. }
  assert (HT : Rsum (list_prod (seq 0 n) rest) (fun x => Cnorm2 (M (fst x) (snd x))) = (a * b)%R).
  { unfold a, b. rewrite <- Rsum_product. apply Rsum_ext. intros x Hx. destruct (Hidx x Hx). rewrite HM by auto. apply Cnorm2_mult'. }
  rewrite HT. destruct (Req_EM_T (a * b) 0) as [E|_]; [nra|].
  destruct (argmax_of_spec (fun x => Cnorm2 (M (fst x) (snd x))) (list_prod (seq 0 n) rest)) as (m & Em & Hm & Hmax).
  { intros E. rewrite E in HT. unfold Rsum in HT. cbn in HT. nra. }
  rewrite Em. destruct (Hidx m Hm) as [Hm1 Hm2]. destruct m as [mi mw]. cbn [fst snd] in *.
  assert (HM0 : M mi mw <> RtoC 0).
  { intros E. apply Cnorm2_0 in E. assert (Hz : (Rsum (list_prod (seq 0 n) rest) (fun x => Cnorm2 (M (fst x) (snd x))) = 0)%R).
    { transitivity (Rsum (list_prod (seq 0 n) rest) (fun _ => 0%R)); [|apply Rsum_zero; auto]. apply Rsum_ext. intros x Hx. specialize (Hmax x Hx). pose proof (Cnorm2_nonneg (M (fst x) (snd x))). lra. }
    rewrite Hz in HT. nra. }
  assert (HA : alpha mi <> RtoC 0) by (intros E; apply HM0; rewrite HM, E by auto; ring).
  assert (HB : beta mw <> RtoC 0) by (intros E; apply HM0; rewrite HM, E by auto; ring).
  set (s := sqrt (a * b)). assert (Hs : (0 < s)%R) by (apply sqrt_lt_R0; nra).
  assert (Hsc : RtoC s <> RtoC 0) by (intros E; apply RtoC_inj in E; lra).
  set (ph := ((M mi mw / RtoC s) / RtoC (Cmod (M mi mw / RtoC s)))%C).
  assert (Hph : ph = (unit_of (alpha mi) * unit_of (beta mw))%C).
  { unfold ph. rewrite <- unit_of_mult by auto. rewrite <- HM by auto. rewrite <- (unit_of_pos (/ s) (M mi mw)) by now apply Rinv_0_lt_compat.
    unfold unit_of. replace (RtoC (/ s) * M mi mw)%C with (M mi mw / RtoC s)%C by (rewrite RtoC_inv by lra; unfold Cdiv; ring).
    destruct (Ceq_dec _ _) as [E|_]; [|reflexivity]. exfalso. apply HM0. replace (M mi mw) with (M mi mw / RtoC s * RtoC s)%C by (field; exact Hsc). rewrite E. ring. }
  exists (/ (RtoC (sqrt a) * unit_of (alpha mi)))%C. eexists. split; [reflexivity|].
  assert (Hu : forall z, unit_of z <> RtoC 0) by (intros z E; pose proof (unit_of_norm z) as H; rewrite E, Cmod_0 in H; lra).
  assert (Hsa : (0 < sqrt a)%R) by now apply sqrt_lt_R0.
  assert (Hsac : RtoC (sqrt a) <> RtoC 0) by (intros E; apply RtoC_inj in E; lra).
  assert (Hden : (RtoC (sqrt a) * unit_of (alpha mi))%C <> RtoC 0) by (apply Cmult_neq_0; auto).
  split; [intros E; apply (f_equal (Cmult (RtoC (sqrt a) * unit_of (alpha mi))%C)) in E; rewrite Cinv_r, Cmult_0_r in E by auto; apply RtoC_inj in E; lra|].
  split.
  { rewrite <- Cmod_sq. rewrite Cmod_inv by auto. rewrite Cmod_mult, unit_of_norm, Cmod_R, Rabs_right, Rmult_1_r by lra. rewrite <- Rinv_mult, sqrt_sqrt by lra. reflexivity. }
  intros i Hi.
  assert (HSq : Rsum (seq 0 n) (fun i => Rsum rest (fun w => Cnorm2 (M i w))) = (a * b)%R).
  { unfold a. rewrite Rmult_comm, <- Rsum_scal_l. apply Rsum_ext. intros k Hk. apply in_seq in Hk. unfold b. rewrite Rmult_comm, <- Rsum_scal_l. apply Rsum_ext.
    intros w Hw. rewrite HM by (auto; lia). apply Cnorm2_mult'. }
  rewrite HSq. replace (Rsum rest (fun w => Cnorm2 (M i w))) with (Cnorm2 (alpha i) * b)%R.
  2:{ unfold b. rewrite <- Rsum_scal_l. apply Rsum_ext. intros w Hw. rewrite HM by auto. symmetry. apply Cnorm2_mult'. }
  replace (Cnorm2 (alpha i) * b / (a * b))%R with (Cnorm2 (alpha i) / a)%R by (field; lra).
  rewrite sqrt_div_alt by auto. rewrite <- Cmod_sqrt. fold ph. rewrite Hph, (HM i mw) by auto.
  replace (alpha i * beta mw / (unit_of (alpha mi) * unit_of (beta mw)))%C with (RtoC (Cmod (beta mw)) * (alpha i / unit_of (alpha mi)))%C.
  2:{ rewrite <- (unit_times_mod (beta mw)) at 2. field. split; apply Hu. }
  rewrite unit_of_pos by now apply Cmod_pos.
  destruct (Ceq_dec (alpha i) (RtoC 0)) as [E|E].
  - rewrite E, Cmod_0. unfold Rdiv. rewrite Rmult_0_l. ring.
  - unfold Cdiv. rewrite unit_of_mult; auto.
    2:{ intros E'. apply (f_equal (Cmult (unit_of (alpha mi)))) in E'. rewrite Cinv_r, Cmult_0_r in E' by auto. apply RtoC_inj in E'. lra. }
    rewrite (unit_of_unit (/ unit_of (alpha mi))%C) by (rewrite Cmod_inv, unit_of_norm by auto; lra).
    rewrite RtoC_div by lra. rewrite <- (unit_times_mod (alpha i)) at 3. field. split; auto.
Qed.

(** ** Products *)
Lemma product_cons v vs i w : product_of (v :: vs) (i :: w) = (v i * product_of vs w)%C.
Proof. reflexivity. Qed.
Definition one_fun : nat -> C := fun _ => RtoC 1.
Lemma product_split vs : forall k w, k < length vs -> length w = length vs ->
  product_of vs w = (nth k vs one_fun (nth k w 0%nat) * product_of (set_nth vs k one_fun) w)%C.
Proof.
  induction vs as [|v vs IH]; intros k w Hk Hw; [cbn in Hk; lia|]. destruct w as [|i w]; [discriminate|]. injection Hw as Hw. destruct k as [|k].
  - cbn [nth set_nth]. rewrite !product_cons. unfold one_fun. ring.
  - cbn [nth set_nth]. rewrite !product_cons. rewrite (IH k w) by (cbn in Hk; auto; lia). ring.
Qed.
Lemma product_one vs : forall k w x, k < length vs -> product_of (set_nth vs k one_fun) (set_nth w k x) = product_of (set_nth vs k one_fun) w.
Proof.
  induction vs as [|v vs IH]; intros k w x Hk; [cbn in Hk; lia|]. destruct w as [|i w]; [now destruct k|]. destruct k as [|k].
  - reflexivity.
  - cbn [set_nth]. rewrite !product_cons. rewrite IH by (cbn in Hk; lia). reflexivity.
Qed.
Lemma product_nonzero vs : forall w, length w = length vs -> (forall k, k < length vs -> nth k vs one_fun (nth k w 0) <> RtoC 0) -> product_of vs w <> RtoC 0.
Proof.
  induction vs as [|v vs IH]; intros [|i w] Hw H; try discriminate.
  - cbn. intros E. apply RtoC_inj in E. lra.
  - rewrite product_cons. apply Cmult_neq_0; [apply (H 0); cbn; lia|]. apply IH; [now injection Hw|]. intros k Hk. apply (H (S k)). cbn. lia.
Qed.
Lemma all_words_spec d : forall w, In w (all_words d) <-> length w = d /\ Forall (fun i => i < 4) w.
Proof.
  induction d as [|d IH]; intros w; cbn [all_words].
  - split; [intros [<-|[]]; auto|]. intros [H _]. destruct w; [now left|discriminate].
  - rewrite in_flat_map. split.
    + intros (i & Hi & Hw). apply in_map_iff in Hw. destruct Hw as (w' & <- & Hw'). apply in_seq in Hi. apply IH in Hw'. destruct Hw' as [H1 H2]. split; [cbn; lia|]. constructor; [lia|exact H2].
    + intros [H1 H2]. destruct w as [|i w]; [discriminate|]. inversion H2; subst. exists i. split; [apply in_seq; lia|]. apply in_map. apply IH. split; [now injection H1|assumption].
Qed.
Lemma NoDup_prefixed (A : Type) (is : list A) (ws : list (list A)) : NoDup is -> NoDup ws -> NoDup (flat_map (fun i => map (cons i) ws) is).
Proof.
  intros Hi Hw. induction Hi as [|i is Hn Hi IH]; [constructor|]. cbn [flat_map]. apply NoDup_app'; [|exact IH|].
  - apply FinFun.Injective_map_NoDup; [intros a b E; now injection E|exact Hw].
  - intros x H1 H2. apply in_map_iff in H1. destruct H1 as (a & <- & _). apply in_flat_map in H2. destruct H2 as (j & Hj & H2). apply in_map_iff in H2.
    destruct H2 as (b & E & _). injection E as -> ->. auto.
Qed.
Lemma all_words_NoDup d : NoDup (all_words d).
Proof. induction d as [|d IH]; [repeat constructor; intros []|]. apply NoDup_prefixed; [apply seq_NoDup|exact IH]. Qed.
Lemma Rsum_support {A} (eq_dec : forall x y : A, {x = y} + {x <> y}) (l m : list A) f : NoDup l -> NoDup m ->
  (forall x, In x l -> In x m) -> (forall x, In x m -> ~ In x l -> f x = 0%R) -> Rsum l f = Rsum m f.
Proof.
  intros Hl Hm Hsub H0.
  set (p := fun x => if in_dec eq_dec x l then true else false).
  assert (HP : Permutation l (filter p m)).
  { apply NoDup_Permutation; [exact Hl|now apply NoDup_filter|]. intros x. rewrite filter_In. unfold p. destruct (in_dec eq_dec x l) as [H|H].
    - split; auto.
    - split; [intros; contradiction|]. intros [_ E]. discriminate. }
  rewrite (Rsum_perm _ _ f HP). rewrite Rsum_filter. apply Rsum_ext. intros x Hx. unfold p. destruct (in_dec eq_dec x l) as [H|H]; [reflexivity|]. symmetry. now apply H0.
Qed.
Lemma words_sum vs : Rsum (all_words (length vs)) (fun w => Cnorm2 (product_of vs w)) =
  fold_right (fun v x => Rsum (seq 0 4) (fun i => Cnorm2 (v i)) * x)%R 1%R vs.
Proof.
  induction vs as [|v vs IH]; [unfold Rsum, product_of; cbn; unfold Cnorm2; cbn; ring|]. cbn [length fold_right]. rewrite <- IH. cbn [all_words]. rewrite Rsum_flat_map.
  rewrite Rmult_comm, <- Rsum_scal_l. apply Rsum_ext. intros i _. rewrite Rsum_map, Rmult_comm, <- Rsum_scal_l. apply Rsum_ext. intros w _. rewrite product_cons. apply Cnorm2_mult.
Qed.
Lemma swap_word_set k i j r : k <= length r -> swap_word k (i :: r) = set_nth (swap_word k (j :: r)) k i.
Proof.
  intros Hk. unfold swap_word. destruct k as [|k]; [reflexivity|]. cbn [set_nth nth]. f_equal. revert k Hk.
  induction r as [|x r IH]; intros k Hk; [cbn in Hk; lia|]. destruct k as [|k]; [reflexivity|]. cbn [set_nth]. f_equal. apply IH. cbn in Hk. lia.
Qed.
Lemma swap_word_length k w : length (swap_word k w) = length w.
Proof. unfold swap_word. now rewrite !set_nth_length. Qed.
Lemma swap_word_nth k i r : k <= length r -> nth k (swap_word k (i :: r)) 0 = i.
Proof. intros Hk. unfold swap_word. rewrite nth_set_nth by (rewrite set_nth_length; cbn; lia). rewrite Nat.eqb_refl. reflexivity. Qed.
Lemma swap_word_invol k w : k < length w -> swap_word k (swap_word k w) = w.
Proof.
  intros Hk. destruct w as [|i r]; [cbn in Hk; lia|]. apply nth_ext with (d := 0) (d' := 0); [now rewrite !swap_word_length|]. intros n Hn.
  unfold swap_word. rewrite !swap_word_length in Hn. rewrite !nth_set_nth by (rewrite ?set_nth_length; cbn in *; lia). cbn in Hk, Hn.
  destruct (Nat.eqb_spec n k); destruct (Nat.eqb_spec n 0); subst; try reflexivity.
  - destruct (Nat.eqb_spec 0 k); [lia|reflexivity].
  - rewrite Nat.eqb_refl. reflexivity.
Qed.
Lemma swap_word_forall (P : nat -> Prop) k w : k < length w -> Forall P w -> Forall P (swap_word k w).
Proof.
  intros Hk HF. apply Forall_forall. intros x Hx. destruct (In_nth _ _ 0 Hx) as (n & Hn & <-). rewrite swap_word_length in Hn.
  unfold swap_word. rewrite Forall_forall in HF. rewrite !nth_set_nth by (rewrite ?set_nth_length; lia).
  destruct (Nat.eqb_spec n k); [apply HF, nth_In; lia|]. destruct (Nat.eqb_spec n 0); apply HF, nth_In; lia.
Qed.

(** ** One outcome *)
Definition factor (x : pr_pair * (nat * nat)) (i : nat) : C :=
  (RtoC (sqrt (1 / 2)) * (p_A (fst x) (fst (snd x)) (i / 2)%nat * p_B (fst x) (snd (snd x)) (i mod 2)%nat))%C.
Lemma amplitude_product ps : forall o w, length o = length ps -> length w = length ps ->
  amplitude_of ps o w = product_of (map factor (combine ps o)) w.
Proof.
  induction ps as [|p ps IH]; intros [|[s t] o] [|i w] Ho Hw; try discriminate; [reflexivity|].
  cbn [amplitude_of combine map]. rewrite product_cons, IH by (cbn in *; lia). reflexivity.
Qed.
Lemma norm_sum p : Rsum (seq 0 2) (fun i => Cnorm2 (p i)) = norm_of p.
Proof. unfold Rsum, norm_of. cbn. ring. Qed.
Lemma unitary_row U s : unitary_setting U -> s < 2 -> norm_of (U s) = 1%R.
Proof.
  intros HU Hs. specialize (HU s s Hs Hs). rewrite Nat.eqb_refl in HU. apply (f_equal fst) in HU. unfold norm_of, Cnorm2. cbn in HU. lra.
Qed.
Lemma unitary_row_fun U s : unitary_setting U -> s < 2 -> Rsum (seq 0 2) (fun i => Cnorm2 (U s i)) = 1%R.
Proof. intros HU Hs. rewrite norm_sum. now apply unitary_row. Qed.
Lemma half_sqrt : (sqrt (1 / 2) * sqrt (1 / 2) = 1 / 2)%R.
Proof. apply sqrt_sqrt. lra. Qed.
Definition sees (st : nat * nat) : Prop := fst st < 2 /\ snd st < 2.
Lemma factor_sum p st : pair_ok p -> sees st -> Rsum (seq 0 4) (fun i => Cnorm2 (factor (p, st) i)) = (1 / 2)%R.
Proof.
  intros (Hq & HA & HB) [Hs Ht]. pose proof (unitary_row _ _ HA Hs) as EA. pose proof (unitary_row _ _ HB Ht) as EB.
  unfold Rsum. cbn [seq fold_right]. unfold factor. cbn [fst snd].
  change (0 / 2)%nat with 0%nat. change (1 / 2)%nat with 0%nat. change (2 / 2)%nat with 1%nat. change (3 / 2)%nat with 1%nat.
  change (0 mod 2)%nat with 0%nat. change (1 mod 2)%nat with 1%nat. change (2 mod 2)%nat with 0%nat. change (3 mod 2)%nat with 1%nat.
  rewrite !Cnorm2_mult, !Cnorm2_RtoC, half_sqrt. unfold norm_of in EA, EB.
  set (a0 := Cnorm2 (p_A p (fst st) 0%nat)) in *. set (a1 := Cnorm2 (p_A p (fst st) 1%nat)) in *.
  set (b0 := Cnorm2 (p_B p (snd st) 0%nat)) in *. set (b1 := Cnorm2 (p_B p (snd st) 1%nat)) in *.
  transitivity (1 / 2 * ((a0 + a1) * (b0 + b1)))%R; [ring|]. rewrite EA, EB. ring.
Qed.

(** The Stokes vector of a normalised polarisation. *)
Lemma stokes_poincare p : norm_of p = 1%R -> stokes_vector p = Some (poincare p).
Proof.
  intros Hn. unfold stokes_vector. unfold norm_of in Hn. rewrite Hn. destruct (Req_EM_T 1 0) as [E|_]; [lra|]. unfold poincare.
  set (h := p 0%nat) in *. set (v := p 1%nat) in *.
  set (n := Cnorm2 h) in *. assert (Ev : Cnorm2 v = (1 - n)%R) by lra.
  replace ((n - Cnorm2 v) / 1)%R with (n - Cnorm2 v)%R by field.
  assert (Hx : sqrt (1 - (n - Cnorm2 v) * (n - Cnorm2 v)) = (2 * (Cmod h * Cmod v))%R).
  { replace (1 - (n - Cnorm2 v) * (n - Cnorm2 v))%R with ((2 * (Cmod h * Cmod v)) * (2 * (Cmod h * Cmod v)))%R.
    - apply sqrt_square. pose proof (Cmod_ge_0 h). pose proof (Cmod_ge_0 v). nra.
    - transitivity (4 * (Cmod h * Cmod h) * (Cmod v * Cmod v))%R; [ring|]. rewrite !Cmod_sq. fold n. rewrite Ev. ring. }
  rewrite Hx.
  assert (K : forall u : C, (u * RtoC (Cmod h * Cmod v) = h * Cconj v)%C ->
    Some (snd u * (2 * (Cmod h * Cmod v)), fst u * (2 * (Cmod h * Cmod v)), n - Cnorm2 v)%R =
    Some (2 * snd (h * Cconj v)%C, 2 * fst (h * Cconj v)%C, n - Cnorm2 v)%R).
  { intros u E. rewrite <- E. f_equal. f_equal. f_equal; cbn; ring. }
  apply K. clear K. destruct (Ceq_dec h (RtoC 0)) as [E|Eh].
  - rewrite E, Cmod_0. apply C_eq; cbn; ring.
  - destruct (Ceq_dec v (RtoC 0)) as [E|Evz].
    + rewrite E, Cmod_0. apply C_eq; cbn; ring.
    + unfold unit_of. destruct (Ceq_dec (h / v)%C (RtoC 0)) as [E|Eq].
      * exfalso. apply Eh. replace h with (h / v * v)%C by (field; auto). rewrite E. ring.
      * assert (Hc : (v * Cconj v)%C = RtoC (Cmod v * Cmod v)) by (rewrite Cmod_sq; apply C_eq; unfold Cnorm2; cbn; ring).
        apply Cmod_pos in Eh. apply Cmod_pos in Evz as Evp. rewrite Cmod_div by auto. rewrite RtoC_div by lra. rewrite !RtoC_mult in *.
        assert (RtoC (Cmod h) <> RtoC 0) by (intros E; apply RtoC_inj in E; lra).
        assert (RtoC (Cmod v) <> RtoC 0) by (intros E; apply RtoC_inj in E; lra).
        transitivity (h / v * (RtoC (Cmod v) * RtoC (Cmod v)))%C; [field; auto|]. rewrite <- Hc. field. auto.
Qed.
Lemma poincare_scaled (c : C) p : poincare (fun i => c * p i)%C = (Cnorm2 c * fst (fst (poincare p)), Cnorm2 c * snd (fst (poincare p)), Cnorm2 c * snd (poincare p))%R.
Proof. unfold poincare, Cnorm2. cbn. f_equal; [f_equal|]; ring. Qed.
Lemma poincare_phase (c : C) p : Cnorm2 c = 1%R -> poincare (fun i => c * p i)%C = poincare p.
Proof. intros E. rewrite poincare_scaled, E. rewrite !Rmult_1_l. destruct (poincare p) as [[a b] d]. reflexivity. Qed.
Lemma poincare_ext p p' : p 0 = p' 0 -> p 1 = p' 1 -> poincare p = poincare p'.
Proof. intros E0 E1. unfold poincare. now rewrite E0, E1. Qed.
Lemma poincare_unit p : norm_of p = 1%R -> dot (poincare p) (poincare p) = 1%R.
Proof.
  intros H. unfold poincare, dot. cbn. unfold norm_of, Cnorm2 in *. destruct (p 0%nat) as [a b], (p 1%nat) as [c d]. cbn in *.
  transitivity ((a * a + b * b + (c * c + d * d)) * (a * a + b * b + (c * c + d * d)))%R; [ring|]. rewrite H. ring.
Qed.
Lemma inner3_dot a b : inner3 a b = dot a b.
Proof. destruct a as [[a1 a2] a3], b as [[b1 b2] b3]. reflexivity. Qed.
Lemma signed_root_stretched q x : (0 < q)%R -> stretched q x (signed_root q x).
Proof.
  intros Hq. unfold stretched, signed_root. destruct (Rlt_dec 0 x) as [H|H]; [|destruct (Rlt_dec x 0) as [H'|H']].
  - split; [|split; intros; lra]. intros _. split; [apply exp_pos|]. rewrite Rpower_mult. replace (1 / q * q)%R with 1%R by (field; lra). now apply Rpower_1.
  - split; [intros; lra|]. split; [intros; lra|]. intros _. split; [pose proof (exp_pos (1 / q * ln (- x))) as P; unfold Rpower; lra|].
    rewrite Ropp_involutive, Rpower_mult. replace (1 / q * q)%R with 1%R by (field; lra). apply Rpower_1. lra.
  - split; [intros; lra|]. split; [reflexivity|intros; lra].
Qed.
Lemma alignment_value p st : pair_ok p -> sees st ->
  alignment_probability (poincare (p_A p (fst st))) (poincare (p_B p (snd st))) (p_q p) =
  (1 / 2 * (signed_root (p_q p) (dot (poincare (p_A p (fst st))) (poincare (p_B p (snd st)))) + 1))%R.
Proof.
  intros (Hq & HA & HB) [Hs Ht]. unfold alignment_probability. rewrite !inner3_dot. rewrite !poincare_unit by now apply unitary_row.
  rewrite Rmult_1_l, sqrt_1. f_equal. f_equal. f_equal. field.
Qed.

Lemma photon_amplitudes_factor v c p st : c <> RtoC 0 -> pair_ok p -> sees st -> (forall i, i < 4 -> v i = (c * factor (p, st) i)%C) ->
  exists c1 c2 p1 p2, photon_amplitudes v = Some (p1, p2) /\ Cnorm2 c1 = 1%R /\ Cnorm2 c2 = 1%R /\
    (forall i, i < 2 -> p1 i = (c1 * p_A p (fst st) i)%C) /\ (forall i, i < 2 -> p2 i = (c2 * p_B p (snd st) i)%C).
Proof.
  intros Hc (Hq & HA & HB) [Hs Ht] Hv. pose proof (unitary_row_fun _ _ HA Hs) as EA. pose proof (unitary_row_fun _ _ HB Ht) as EB.
  assert (Hh : RtoC (sqrt (1 / 2)) <> RtoC 0) by (intros E; apply RtoC_inj in E; pose proof half_sqrt as H; rewrite E in H; lra).
  assert (Hch : (0 < Cnorm2 (Cmult c (RtoC (sqrt (1 / 2)))))%R).
  { pose proof (Cnorm2_nonneg (Cmult c (RtoC (sqrt (1 / 2))))). destruct H as [H|H]; [exact H|]. exfalso. symmetry in H. apply Cnorm2_0 in H. revert H. now apply Cmult_neq_0. }
  assert (Hrow : forall u : nat -> C, Rsum (seq 0 2) (fun i => Cnorm2 (u i)) = 1%R ->
    (Rsum [[0%nat]; [1%nat]] (fun r => Cnorm2 (Cmult (Cmult c (RtoC (sqrt (1 / 2)))) (u (hd 0%nat r)))) <> 0)%R).
  { intros u E. unfold Rsum in E |- *. cbn [fold_right seq hd] in E |- *. rewrite !(Cnorm2_mult (Cmult c _)). nra. }
  destruct (vector_from_product 2 [[0]; [1]] (fun a r => v (2 * a + hd 0 r)) (p_A p (fst st)) (fun r => c * RtoC (sqrt (1 / 2)) * p_B p (snd st) (hd 0%nat r))%C)
    as (c1 & p1 & E1 & _ & N1 & H1).
  { intros i w Hi Hw. assert (Hh0 : hd 0 w < 2) by (destruct Hw as [<-|[<-|[]]]; cbn; lia). rewrite Hv by lia. unfold factor. cbn [fst snd].
    replace ((2 * i + hd 0 w) / 2) with i by (apply (Nat.div_unique _ 2 _ (hd 0 w)); lia).
    replace ((2 * i + hd 0 w) mod 2) with (hd 0 w) by (apply (Nat.mod_unique _ 2 i); lia). ring. }
  { rewrite EA. lra. }
  { now apply Hrow. }
  destruct (vector_from_product 2 [[0]; [1]] (fun b r => v (2 * hd 0 r + b)) (p_B p (snd st)) (fun r => c * RtoC (sqrt (1 / 2)) * p_A p (fst st) (hd 0%nat r))%C)
    as (c2 & p2 & E2 & _ & N2 & H2).
  { intros i w Hi Hw. assert (Hh0 : hd 0 w < 2) by (destruct Hw as [<-|[<-|[]]]; cbn; lia). rewrite Hv by lia. unfold factor. cbn [fst snd].
    replace ((2 * hd 0 w + i) / 2) with (hd 0 w) by (apply (Nat.div_unique _ 2 _ i); lia).
    replace ((2 * hd 0 w + i) mod 2) with i by (apply (Nat.mod_unique _ 2 (hd 0 w)); lia). ring. }
  { rewrite EB. lra. }
  { now apply Hrow. }
  exists c1, c2, p1, p2. unfold photon_amplitudes. rewrite E1, E2. split; [reflexivity|]. rewrite EA in N1. rewrite EB in N2.
  split; [lra|]. split; [lra|]. auto.
Qed.

Lemma difference_scaled {A} (idx : list A) old new c : c <> RtoC 0 -> (Rsum idx (fun x => Cnorm2 (old x)) <> 0)%R ->
  (forall x, In x idx -> new x = (c * old x)%C) -> difference_ppm idx old new = Some 0%R.
Proof.
  intros Hc H0 Hn. unfold difference_ppm. set (n := Rsum idx (fun x => Cnorm2 (old x))) in *.
  assert (Hn0 : (0 < n)%R) by (assert (0 <= n)%R by (apply Rsum_nonneg; intros; apply Cnorm2_nonneg); lra).
  assert (E2 : Rsum idx (fun x => Cnorm2 (new x)) = (Cnorm2 c * n)%R) by (unfold n; rewrite <- Rsum_scal_l; apply Rsum_ext; intros x Hx; rewrite Hn by auto; apply Cnorm2_mult).
  rewrite E2. assert (Hcp : (0 < Cnorm2 c)%R) by (pose proof (Cnorm2_nonneg c) as P; destruct P as [P|P]; [exact P|symmetry in P; apply Cnorm2_0 in P; contradiction]).
  assert (S1 : (0 < sqrt n)%R) by now apply sqrt_lt_R0.
  rewrite sqrt_mult by lra. rewrite <- Cmod_sqrt. apply Cmod_pos in Hc as Hm.
  destruct (Req_EM_T (sqrt n) 0) as [E|_]; [lra|]. destruct (Req_EM_T (Cmod c * sqrt n)%R 0) as [E|_]; [nra|].
  destruct (argmax_of_spec (fun x => Cmod (old x / RtoC (sqrt n))%C) idx) as (m & Em & Him & Hmax).
  { intros E. apply H0. unfold n. rewrite E. reflexivity. }
  rewrite Em.
  assert (Hsq : RtoC (sqrt n) <> RtoC 0) by (intros E; apply RtoC_inj in E; lra).
  assert (Hcm : RtoC (Cmod c) <> RtoC 0) by (intros E; apply RtoC_inj in E; lra).
  assert (Hom : old m <> RtoC 0).
  { intros E. apply H0. unfold n. apply Rsum_zero. intros x Hx. apply Cnorm2_0. specialize (Hmax x Hx). rewrite E in Hmax.
    replace (RtoC 0 / RtoC (sqrt n))%C with (RtoC 0) in Hmax by (field; auto). rewrite Cmod_0 in Hmax.
    assert (E' : (old x / RtoC (sqrt n))%C = RtoC 0) by (apply Cmod_eq_0; pose proof (Cmod_ge_0 (old x / RtoC (sqrt n))%C); lra).
    replace (old x) with (old x / RtoC (sqrt n) * RtoC (sqrt n))%C by (field; auto). rewrite E'. ring. }
  assert (Enew : forall x, In x idx -> (new x / RtoC (Cmod c * sqrt n) = unit_of c * (old x / RtoC (sqrt n)))%C).
  { intros x Hx. rewrite Hn by auto. unfold unit_of. destruct (Ceq_dec c _) as [|_]; [contradiction|]. rewrite RtoC_mult. field. auto. }
  rewrite (Enew m Him).
  assert (Ho : (old m / RtoC (sqrt n))%C <> RtoC 0).
  { intros E. apply Hom. replace (old m) with (old m / RtoC (sqrt n) * RtoC (sqrt n))%C by (field; auto). rewrite E. ring. }
  assert (Hu : unit_of c <> RtoC 0) by (intros E; pose proof (unit_of_norm c) as P; rewrite E, Cmod_0 in P; lra).
  destruct (Ceq_dec _ _) as [E|_]; [exfalso; revert E; now apply Cmult_neq_0|].
  f_equal. replace (Rsum idx _) with 0%R; [rewrite sqrt_0; ring|]. symmetry. apply Rsum_zero. intros x Hx. apply Cnorm2_0. rewrite (Enew x Hx).
  rewrite Cmod_mult, unit_of_norm, Rmult_1_l. apply Cmod_pos in Ho as Hop. set (om := (old m / RtoC (sqrt n))%C) in *.
  assert (RtoC (Cmod om) <> RtoC 0) by (intros E; apply RtoC_inj in E; lra). field. auto.
Qed.

Lemma reproduced_factors T fs : 0 < length fs ->
  (forall f, In f fs -> (Rsum (seq 0 4) (fun i => Cnorm2 (f i)) <> 0)%R) ->
  (forall w, In w (all_words (length fs)) -> T w = product_of fs w) ->
  exists vs, reproduced_vectors (length fs) T = Some vs /\
    Forall2 (fun f v => exists c, c <> RtoC 0 /\ forall i, i < 4 -> v i = (c * f i)%C) fs vs.
Proof.
  intros Hd Hf HT. unfold reproduced_vectors. destruct (Nat.ltb_spec 1 (length fs)) as [H1|H1].
  2:{ destruct fs as [|f [|g fs]]; [cbn in Hd; lia| |cbn in H1; lia]. eexists. split; [reflexivity|]. constructor; [|constructor]. exists (RtoC 1).
      split; [intros E; apply RtoC_inj in E; lra|]. intros i Hi. rewrite HT by (apply all_words_spec; split; [reflexivity|constructor; [exact Hi|constructor]]). cbn. ring. }
  set (d := length fs) in *.
  assert (Hpick : exists iw, In iw (all_words d) /\ forall k, k < d -> nth k fs one_fun (nth k iw 0) <> RtoC 0).
  { clear HT H1 Hd T. unfold d. clear d. induction fs as [|f fs IH].
    - exists []. split; [now left|]. intros k Hk. cbn in Hk. lia.
    - destruct IH as (iw & Hw & Hk). { intros g Hg. apply Hf. now right. }
      assert (Hx : exists i, i < 4 /\ f i <> RtoC 0).
      { assert (H := Hf f (or_introl eq_refl)). destruct (Ceq_dec (f 0%nat) (RtoC 0)) as [E0|]; [|exists 0; split; [lia|auto]].
        destruct (Ceq_dec (f 1%nat) (RtoC 0)) as [E1|]; [|exists 1; split; [lia|auto]].
        destruct (Ceq_dec (f 2%nat) (RtoC 0)) as [E2|]; [|exists 2; split; [lia|auto]].
        destruct (Ceq_dec (f 3%nat) (RtoC 0)) as [E3|]; [|exists 3; split; [lia|auto]].
        exfalso. apply H. unfold Rsum. cbn. rewrite E0, E1, E2, E3, Cnorm2_zero. ring. }
      destruct Hx as (i & Hi & Hfi). exists (i :: iw). split; [apply all_words_spec; apply all_words_spec in Hw; destruct Hw; split; [cbn; lia|now constructor]|].
      intros [|k] Hk'; [exact Hfi|]. apply Hk. cbn in Hk'. lia. }
  destruct Hpick as (iw & Hiw & Hnz). apply all_words_spec in Hiw. destruct Hiw as [Liw Fiw].
  assert (Hall : forall k, k < d -> exists v, vector_from_matrix 4 (all_words (d - 1)) (fun i r => T (swap_word k (i :: r))) = Some v /\
            exists c, c <> RtoC 0 /\ forall i, i < 4 -> v i = (c * nth k fs one_fun i)%C).
  { intros k Hk. destruct (vector_from_product 4 (all_words (d - 1)) (fun i r => T (swap_word k (i :: r))) (nth k fs one_fun)
        (fun r => product_of (set_nth fs k one_fun) (swap_word k (0 :: r)))) as (c & v & E & Hc & _ & Hv).
    - intros i r Hi Hr. apply all_words_spec in Hr. destruct Hr as [Lr Fr].
      rewrite HT.
      2:{ apply all_words_spec. rewrite swap_word_length. split; [cbn; lia|]. apply swap_word_forall; [cbn; lia|now constructor]. }
      rewrite (product_split fs k) by (rewrite ?swap_word_length; cbn; fold d; lia). rewrite swap_word_nth by lia. f_equal.
      rewrite (swap_word_set k i 0 r) by lia. now rewrite product_one.
    - apply Hf. apply nth_In. exact Hk.
    - assert (Hn : Cnorm2 (product_of (set_nth fs k one_fun) (swap_word k (0 :: tl (swap_word k iw)))) <> 0%R).
      { intros E. apply Cnorm2_0 in E. revert E. destruct (swap_word k iw) as [|i r] eqn:Es; [pose proof (swap_word_length k iw) as L; rewrite Es in L; cbn in L; lia|].
        pose proof (swap_word_length k iw) as L. rewrite Es in L. cbn in L. cbn [tl].
        rewrite <- (product_one fs k (swap_word k (0 :: r)) i) by exact Hk. rewrite <- (swap_word_set k i 0 r) by lia. rewrite <- Es, swap_word_invol by lia.
        intros E. assert (P : product_of fs iw <> RtoC 0) by (apply product_nonzero; auto). apply P. rewrite (product_split fs k iw) by auto. rewrite E. ring. }
      assert (Hin : In (tl (swap_word k iw)) (all_words (d - 1))).
      { apply all_words_spec. pose proof (swap_word_length k iw) as L. assert (F : Forall (fun i => i < 4) (swap_word k iw)) by (apply swap_word_forall; [lia|auto]).
        destruct (swap_word k iw) as [|i r]; [cbn in L; lia|]. cbn in L |- *. split; [lia|]. now inversion F. }
      intros E. pose proof (Rsum_le_term (all_words (d - 1)) (fun r => Cnorm2 (product_of (set_nth fs k one_fun) (swap_word k (0 :: r)))) _ (fun y _ => Cnorm2_nonneg _) Hin) as Hle.
      rewrite E in Hle. cbv beta in Hle. pose proof (Cnorm2_nonneg (product_of (set_nth fs k one_fun) (swap_word k (0 :: tl (swap_word k iw))))). lra.
    - exists v. split; [exact E|]. exists c. auto. }
  assert (Hchoice : forall l, (forall k, In k l -> k < d) -> exists vs,
     option_list (map (fun k => vector_from_matrix 4 (all_words (d - 1)) (fun i r => T (swap_word k (i :: r)))) l) = Some vs /\
     Forall2 (fun k v => exists c, c <> RtoC 0 /\ forall i, i < 4 -> v i = (c * nth k fs one_fun i)%C) l vs).
  { induction l as [|k l IH]; intros Hl; [exists []; split; [reflexivity|constructor]|]. destruct IH as (vs & E & HF); [intros; apply Hl; now right|].
    destruct (Hall k (Hl k (or_introl eq_refl))) as (v & Ev & Hv). exists (v :: vs). cbn [map option_list]. rewrite Ev, E. split; [reflexivity|]. now constructor. }
  destruct (Hchoice (seq 0 d)) as (vs & E & HF); [intros k Hk; apply in_seq in Hk; lia|]. exists vs. split; [exact E|].
  clear - HF. unfold d in HF. assert (K : forall m gs, (forall k, k < length gs -> nth (m + k) fs one_fun = nth k gs one_fun) -> forall vs,
     Forall2 (fun k v => exists c, c <> RtoC 0 /\ forall i, i < 4 -> v i = (c * nth k fs one_fun i)%C) (seq m (length gs)) vs ->
     Forall2 (fun f v => exists c, c <> RtoC 0 /\ forall i, i < 4 -> v i = (c * f i)%C) gs vs).
  { clear. intros m gs. revert m. induction gs as [|g gs IH]; intros m Hk vs HF; inversion HF; subst; [constructor|]. constructor.
    - specialize (Hk 0). cbn in Hk. rewrite Nat.add_0_r in Hk. rewrite <- Hk by lia. assumption.
    - apply (IH (S m)); [|assumption]. intros k Hk'. specialize (Hk (S k)). cbn in Hk. rewrite Nat.add_succ_r in Hk. apply Hk. lia. }
  apply (K 0 fs); [intros; reflexivity|exact HF].
Qed.

Lemma product_scaled fs vs : Forall2 (fun f v : nat -> C => exists c, c <> RtoC 0 /\ forall i, i < 4 -> v i = (c * f i)%C) fs vs ->
  exists c, c <> RtoC 0 /\ forall w, length w = length fs -> Forall (fun i => i < 4) w -> product_of vs w = (c * product_of fs w)%C.
Proof.
  induction 1 as [|f v fs vs (c & Hc & Hv) HF (c' & Hc' & IH)].
  - exists (RtoC 1). split; [intros E; apply RtoC_inj in E; lra|]. intros w _ _. cbn. ring.
  - exists (c * c')%C. split; [now apply Cmult_neq_0|]. intros [|i w] Hw HF'; [discriminate|]. inversion HF'; subst. rewrite !product_cons, Hv, IH by (auto; now injection Hw). ring.
Qed.
Lemma Forall_combine {A B} (P : A -> Prop) (Q : B -> Prop) l : forall m, Forall P l -> Forall Q m -> Forall (fun x => P (fst x) /\ Q (snd x)) (combine l m).
Proof. induction l as [|x l IH]; intros [|y m] H1 H2; cbn; constructor; inversion H1; inversion H2; subst; auto. Qed.
Lemma all_outcomes_spec d : forall o, In o (all_outcomes d) <-> length o = d /\ Forall sees o.
Proof.
  induction d as [|d IH]; intros o; cbn [all_outcomes].
  - split; [intros [<-|[]]; auto|]. intros [H _]. destruct o; [now left|discriminate].
  - rewrite in_flat_map. split.
    + intros (st & Hst & Ho). apply in_map_iff in Ho. destruct Ho as (o' & <- & Ho'). apply IH in Ho'. destruct Ho' as [H1 H2]. split; [cbn; lia|]. constructor; [|exact H2].
      destruct Hst as [<-|[<-|[<-|[<-|[]]]]]; unfold sees; cbn; lia.
    + intros [H1 H2]. destruct o as [|[s t] o]; [discriminate|]. inversion H2 as [|? ? [Hs Ht] H3]; subst. exists (s, t). split.
      * cbn in Hs, Ht. destruct s as [|[|s]]; [| |lia]; (destruct t as [|[|t]]; [| |lia]); cbn; auto.
      * apply in_map. apply IH. split; [now injection H1|assumption].
Qed.

(** The dictionary holds the amplitudes of the configurations for which outcome [o] is possible. *)
Definition amplitudes_in (ps : list pr_pair) (o : list (nat * nat)) (dict : list (list nat * C)) : Prop :=
  NoDup (map fst dict) /\
  (forall w a, In (w, a) dict -> length w = length ps /\ Forall (fun i => i < 4) w /\ a = amplitude_of ps o w) /\
  (forall w, length w = length ps -> Forall (fun i => i < 4) w -> ~ In w (map fst dict) -> amplitude_of ps o w = RtoC 0).

Lemma pr_dget_in {V} (k : list nat) (d : list (list nat * V)) v : NoDup (map fst d) -> In (k, v) d -> dget leqb k d = Some v.
Proof. apply (dget_in leqb leqb_spec). Qed.
Lemma pr_dget_notin {V} (k : list nat) (d : list (list nat * V)) : ~ In k (map fst d) -> dget leqb k d = None.
Proof. apply (dget_none_iff leqb leqb_spec). Qed.

Lemma outcome_probability_value ps o dict weight : ps <> [] -> Forall pair_ok ps -> In o (all_outcomes (length ps)) -> amplitudes_in ps o dict ->
  outcome_probability (map p_q ps) weight dict =
  Some (fold_right (fun x r => (1 + signed_root (p_q (fst x)) (dot (poincare (p_A (fst x) (fst (snd x)))) (poincare (p_B (fst x) (snd (snd x)))))) / 4 * r) 1 (combine ps o) * weight)%R.
Proof.
  intros Hps Hok Ho (ND & Hin & Hout). apply all_outcomes_spec in Ho. destruct Ho as [Lo Ho].
  set (fs := map factor (combine ps o)). set (T := tensor_of dict).
  assert (Lfs : length fs = length ps) by (unfold fs; rewrite map_length, combine_length; lia).
  assert (HT : forall w, In w (all_words (length fs)) -> T w = product_of fs w).
  { intros w Hw. apply all_words_spec in Hw. destruct Hw as [Lw Fw]. rewrite Lfs in Lw. unfold fs. rewrite <- amplitude_product by auto. unfold T, tensor_of.
    destruct (in_dec (list_eq_dec Nat.eq_dec) w (map fst dict)) as [H|H].
    - apply in_map_iff in H. destruct H as ([w' a] & E & Hwa). cbn in E. subst w'. rewrite (pr_dget_in _ _ a ND Hwa). now apply (Hin w a).
    - rewrite (pr_dget_notin _ _ H). symmetry. now apply Hout. }
  assert (HC : Forall (fun x => pair_ok (fst x) /\ sees (snd x)) (combine ps o)) by now apply Forall_combine.
  assert (Ecl : length (combine ps o) = length ps) by (rewrite combine_length; lia).
  assert (Hsum : fold_right (fun v x => Rsum (seq 0 4) (fun i => Cnorm2 (v i)) * x)%R 1%R fs = ((1 / 2) ^ length ps)%R).
  { unfold fs. rewrite <- Ecl. clear - HC. induction HC as [|[p st] l [Hp Hs] HF IH]; [reflexivity|]. cbn [map fold_right length pow]. rewrite IH. cbn [fst snd] in Hp, Hs. rewrite (factor_sum p st) by auto. reflexivity. }
  assert (Hover : Rsum dict (fun x => Cnorm2 (snd x)) = ((1 / 2) ^ length ps)%R).
  { rewrite <- Hsum, <- words_sum.
    transitivity (Rsum (map fst dict) (fun w => Cnorm2 (T w))).
    - rewrite Rsum_map. apply Rsum_ext. intros [w a] Hwa. cbn [fst snd]. unfold T, tensor_of. now rewrite (pr_dget_in _ _ a ND Hwa).
    - transitivity (Rsum (all_words (length fs)) (fun w => Cnorm2 (T w))); [|apply Rsum_ext; intros w Hw; now rewrite HT].
      apply (Rsum_support (list_eq_dec Nat.eq_dec)); [exact ND|apply all_words_NoDup| |].
      + intros w Hw. apply in_map_iff in Hw. destruct Hw as ([w' a] & E & Hwa). cbn in E. subst w'. apply all_words_spec. rewrite Lfs. destruct (Hin w a Hwa) as (H1 & H2 & _). auto.
      + intros w Hw Hn. unfold T, tensor_of. rewrite (pr_dget_notin _ _ Hn). apply Cnorm2_zero. }
  assert (Hpow : (0 < (1 / 2) ^ length ps)%R) by (apply pow_lt; lra).
  destruct dict as [|[w0 a0] dict']; [unfold Rsum in Hover; cbn in Hover; lra|].
  assert (Lw0 : length w0 = length ps) by now apply (Hin w0 a0 (or_introl eq_refl)).
  unfold outcome_probability. cbn [fst]. rewrite Lw0, <- Lfs. fold T.
  destruct (reproduced_factors T fs) as (vs & Evs & HF).
  { rewrite Lfs. destruct ps; [contradiction|cbn; lia]. }
  { intros f Hf. unfold fs in Hf. apply in_map_iff in Hf. destruct Hf as ([p st] & <- & Hx). rewrite Forall_forall in HC. destruct (HC _ Hx) as [Hp Hs]. cbn in Hp, Hs.
    rewrite (factor_sum p st) by auto. lra. }
  { exact HT. }
  rewrite Evs.
  assert (HS : exists pas ss, option_list (map photon_amplitudes vs) = Some pas /\
     option_list (map (fun p => match stokes_vector (fst p), stokes_vector (snd p) with Some a, Some b => Some (a, b) | _, _ => None end) pas) = Some ss /\
     ss = map (fun x => (poincare (p_A (fst x) (fst (snd x))), poincare (p_B (fst x) (snd (snd x))))) (combine ps o)).
  { unfold fs in HF. clear - HF HC. revert vs HF. induction HC as [|[p st] l [Hp Hs] _ IH]; intros vs HF; cbn [map] in HF; inversion HF; subst.
    - exists [], []. auto.
    - match goal with H : exists c, _ |- _ => destruct H as (c & Hc & Hv) end. match goal with H : Forall2 _ (map factor l) _ |- _ => destruct (IH _ H) as (pas & ss & E1 & E2 & E3) end.
      cbn [fst snd] in Hp, Hs. destruct (photon_amplitudes_factor _ c p st Hc Hp Hs Hv) as (c1 & c2 & p1 & p2 & Ep & N1 & N2 & H1 & H2).
      destruct Hp as (Hq & HA & HB). destruct Hs as [Hs Ht].
      assert (S1 : stokes_vector p1 = Some (poincare (p_A p (fst st)))).
      { rewrite <- (poincare_phase c1) by exact N1. rewrite stokes_poincare.
        - f_equal. apply poincare_ext; apply H1; lia.
        - unfold norm_of. rewrite !H1 by lia. rewrite !Cnorm2_mult, N1, !Rmult_1_l. now apply (unitary_row (p_A p)). }
      assert (S2 : stokes_vector p2 = Some (poincare (p_B p (snd st)))).
      { rewrite <- (poincare_phase c2) by exact N2. rewrite stokes_poincare.
        - f_equal. apply poincare_ext; apply H2; lia.
        - unfold norm_of. rewrite !H2 by lia. rewrite !Cnorm2_mult, N2, !Rmult_1_l. now apply (unitary_row (p_B p)). }
      exists ((p1, p2) :: pas), ((poincare (p_A p (fst st)), poincare (p_B p (snd st))) :: ss).
      cbn [map option_list]. rewrite Ep, E1. split; [reflexivity|]. cbn [map option_list fst snd]. rewrite S1, S2, E2. split; [reflexivity|]. cbn [map fst snd]. now rewrite E3. }
  destruct HS as (pas & ss & E1 & E2 & E3). rewrite E1, E2.
  assert (Hdf : dict_factorable (length fs) T vs = true).
  { unfold dict_factorable. destruct (product_scaled fs vs HF) as (c & Hc & Hp). rewrite (difference_scaled (all_words (length fs)) T (product_of vs) c Hc).
    - unfold below, Rltb. destruct (Rlt_dec 0 1); [reflexivity|lra].
    - intros E. assert (E' : Rsum (all_words (length fs)) (fun w => Cnorm2 (product_of fs w)) = 0%R) by (rewrite <- E; apply Rsum_ext; intros w Hw; now rewrite HT).
      rewrite words_sum, Hsum in E'. lra.
    - intros w Hw. rewrite HT by exact Hw. apply all_words_spec in Hw. destruct Hw. now apply Hp. }
  rewrite Hdf. cbn [negb andb].
  assert (Lss : length ss = length ps) by (rewrite E3, map_length, combine_length; lia).
  rewrite map_length, Lss, Nat.ltb_irrefl. f_equal. f_equal.
  replace (Rsum ((w0, a0) :: dict') (fun x => Cnorm2 (snd x))) with ((1 / 2) ^ length ps)%R by (symmetry; exact Hover).
  assert (Hlen : length ps = length (combine ps o)) by (rewrite combine_length; lia). rewrite Hlen. rewrite E3.
  assert (Ecomb : combine (map (fun x => (poincare (p_A (fst x) (fst (snd x))), poincare (p_B (fst x) (snd (snd x))))) (combine ps o)) (map p_q ps) =
     map (fun x => ((poincare (p_A (fst x) (fst (snd x))), poincare (p_B (fst x) (snd (snd x)))), p_q (fst x))) (combine ps o)).
  { clear - Lo. revert o Lo. induction ps as [|p ps IH]; intros [|st o] Lo; try discriminate; [reflexivity|]. cbn [combine map fst snd]. rewrite IH by now injection Lo. reflexivity. }
  rewrite Ecomb. clear - HC.
  set (l := combine ps o) in *. clearbody l.
  assert (G : forall acc, fold_left (fun (p : R) (x : R * R * R * (R * R * R) * R) => (p * alignment_probability (fst (fst x)) (snd (fst x)) (snd x))%R)
     (map (fun x => (poincare (p_A (fst x) (fst (snd x))), poincare (p_B (fst x) (snd (snd x))), p_q (fst x))) l) acc =
     (acc * fold_right (fun x r => 1 / 2 * (signed_root (p_q (fst x)) (dot (poincare (p_A (fst x) (fst (snd x)))) (poincare (p_B (fst x) (snd (snd x))))) + 1) * r) 1 l)%R).
  { induction HC as [|[p st] l [Hp Hs] _ IH]; intros acc; cbn [map fold_left fold_right]; [ring|]. rewrite IH. cbn [fst snd] in *. rewrite (alignment_value p st) by auto. ring. }
  rewrite G. clear G HC. induction l as [|x l IH]; [cbn; ring|]. cbn [length pow fold_right]. rewrite <- IH. field.
Qed.

Lemma pair_probability_value p st : (0 < p_q p)%R ->
  pair_probability p st ((1 + signed_root (p_q p) (dot (poincare (p_A p (fst st))) (poincare (p_B p (snd st))))) / 4)%R.
Proof. intros Hq. eexists. split; [|reflexivity]. now apply signed_root_stretched. Qed.

(** The probability that the code assigns to outcome [o]. *)
Theorem C42_probability ps o dict weight : ps <> [] -> Forall pair_ok ps -> In o (all_outcomes (length ps)) -> amplitudes_in ps o dict ->
  exists x, outcome_has ps o x /\ outcome_probability (map p_q ps) weight dict = Some (x * weight)%R.
Proof.
  intros Hps Hok Ho Hd. pose proof (outcome_probability_value ps o dict weight Hps Hok Ho Hd) as E. eexists. split; [|exact E].
  apply all_outcomes_spec in Ho. destruct Ho as [Lo _].
  replace (fold_right _ 1%R (combine ps o)) with (fold_right Rmult 1%R (map (fun x : pr_pair * (nat * nat) =>
     ((1 + signed_root (p_q (fst x)) (dot (poincare (p_A (fst x) (fst (snd x)))) (poincare (p_B (fst x) (snd (snd x)))))) / 4)%R) (combine ps o))).
  2:{ clear. induction (combine ps o) as [|x l IH]; [reflexivity|]. cbn [map fold_right]. now rewrite IH. }
  constructor; [exact Lo|]. assert (HC : Forall (fun x => pair_ok (fst x)) (combine ps o)).
  { apply Forall_forall. intros [p st] Hx. apply in_combine_l in Hx. rewrite Forall_forall in Hok. cbn. auto. }
  clear - HC. induction HC as [|x l Hx _ IH]; cbn [map]; constructor; auto. apply pair_probability_value. apply Hx.
Qed.

(** ** Statistics *)
Lemma stretched_value q x y : (0 < q)%R -> stretched q x y -> y = signed_root q x.
Proof.
  intros Hq (H1 & H2 & H3). unfold signed_root. destruct (Rlt_dec 0 x) as [H|H]; [|destruct (Rlt_dec x 0) as [H'|H']].
  - destruct (H1 H) as [Hy <-]. rewrite Rpower_mult. replace (q * (1 / q))%R with 1%R by (field; lra). symmetry. now apply Rpower_1.
  - destruct (H3 H') as [Hy <-]. rewrite Rpower_mult. replace (q * (1 / q))%R with 1%R by (field; lra). rewrite Rpower_1 by lra. ring.
  - apply H2. lra.
Qed.
Definition pair_value (p : pr_pair) (st : nat * nat) : R :=
  ((1 + signed_root (p_q p) (dot (poincare (p_A p (fst st))) (poincare (p_B p (snd st))))) / 4)%R.
Lemma pair_probability_unique p st x : pair_ok p -> pair_probability p st x -> x = pair_value p st.
Proof. intros (Hq & _) (y & Hy & ->). unfold pair_value. now rewrite (stretched_value _ _ _ Hq Hy). Qed.
Lemma outcome_unique ps o x : Forall pair_ok ps -> outcome_has ps o x -> x = fold_right (fun z r => pair_value (fst z) (snd z) * r)%R 1%R (combine ps o).
Proof.
  intros Hok H. inversion H as [o' xs Lo HF]; subst. clear H Lo. assert (HC : Forall (fun x => pair_ok (fst x)) (combine ps o)).
  { apply Forall_forall. intros [p st] Hx. apply in_combine_l in Hx. rewrite Forall_forall in Hok. cbn. auto. }
  induction HF as [|z x l xs Hz HF IH]; [reflexivity|]. inversion HC; subst. cbn [fold_right]. rewrite IH by assumption. f_equal. now apply pair_probability_unique.
Qed.
Lemma signed_root_odd q x : signed_root q (- x) = (- signed_root q x)%R.
Proof.
  unfold signed_root. destruct (Rlt_dec 0 x), (Rlt_dec x 0), (Rlt_dec 0 (- x)), (Rlt_dec (- x) 0); try lra. now rewrite Ropp_involutive.
Qed.
Lemma signed_root_range q x : (0 < q)%R -> (-1 <= x <= 1)%R -> (-1 <= signed_root q x <= 1)%R.
Proof.
  intros Hq Hx. assert (K : forall z, (0 < z <= 1)%R -> (0 < Rpower z (1 / q) <= 1)%R).
  { intros z Hz. split; [apply exp_pos|]. unfold Rpower. assert (Hl : (ln z <= 0)%R) by (rewrite <- ln_1; destruct (Req_dec z 1) as [->|]; [lra|left; apply ln_increasing; lra]).
    assert (Hi : (0 < 1 / q)%R) by (apply Rdiv_lt_0_compat; lra). assert (H : (1 / q * ln z <= 0)%R) by nra. destruct H as [H|H]; [left; apply exp_increasing in H; rewrite exp_0 in H; exact H|rewrite H, exp_0; lra]. }
  unfold signed_root. destruct (Rlt_dec 0 x) as [H|H]; [specialize (K x); lra|]. destruct (Rlt_dec x 0) as [H'|H']; [specialize (K (- x)%R); lra|lra].
Qed.
Lemma antiparallel U : unitary_setting U -> forall b, dot (poincare (U 1%nat)) b = (- dot (poincare (U 0%nat)) b)%R.
Proof.
  intros HU [[b1 b2] b3]. pose proof (HU 0 0 ltac:(lia) ltac:(lia)) as H00. pose proof (HU 1 1 ltac:(lia) ltac:(lia)) as H11. pose proof (HU 0 1 ltac:(lia) ltac:(lia)) as H01.
  cbn [Nat.eqb] in H00, H11, H01. unfold poincare. set (a := U 0%nat 0%nat) in *. set (b := U 0%nat 1%nat) in *. set (c := U 1%nat 0%nat) in *. set (d := U 1%nat 1%nat) in *.
  assert (Na : (Cnorm2 a + Cnorm2 b = 1)%R) by (apply (f_equal fst) in H00; unfold Cnorm2; cbn in H00; lra).
  assert (Nc : (Cnorm2 c + Cnorm2 d = 1)%R) by (apply (f_equal fst) in H11; unfold Cnorm2; cbn in H11; lra).
  assert (Hac : (Cnorm2 a * Cnorm2 c = Cnorm2 b * Cnorm2 d)%R).
  { rewrite <- (Cnorm2_conj c), <- (Cnorm2_conj d), <- !Cnorm2_mult. replace (a * Cconj c)%C with (- (b * Cconj d))%C; [unfold Cnorm2; cbn; ring|].
    transitivity (a * Cconj c + b * Cconj d - b * Cconj d)%C; [rewrite H01; ring|ring]. }
  assert (Eac : (Cnorm2 a + Cnorm2 c = 1)%R) by nra.
  assert (Ed : Cnorm2 d = Cnorm2 a) by lra. assert (Eb : Cnorm2 b = Cnorm2 c) by lra.
  assert (Hx : (c * Cconj d = - (a * Cconj b))%C).
  { destruct (Ceq_dec a (RtoC 0)) as [E|E].
    - rewrite E in Ed. rewrite Cnorm2_zero in Ed. apply Cnorm2_eq0 in Ed. rewrite E, Ed. apply C_eq; cbn; ring.
    - assert (Hca : Cconj a <> RtoC 0) by (intros E'; apply E; apply (f_equal Cconj) in E'; rewrite Cconj_invol in E'; rewrite E'; apply C_eq; cbn; ring).
      assert (H01' : (Cconj a * c + Cconj b * d = RtoC 0)%C).
      { apply (f_equal Cconj) in H01. rewrite Cconj_plus, !Cconj_mult, !Cconj_invol in H01. rewrite H01. apply C_eq; cbn; ring. }
      assert (Hdd : (d * Cconj d)%C = (a * Cconj a)%C).
      { apply C_eq; [|cbn; ring]. unfold Cnorm2 in Ed. cbn. lra. }
      replace (c * Cconj d)%C with (/ Cconj a * (Cconj a * (c * Cconj d)))%C by (field; exact Hca). replace (- (a * Cconj b))%C with (/ Cconj a * (Cconj a * - (a * Cconj b)))%C by (field; exact Hca). f_equal.
      transitivity ((Cconj a * c + Cconj b * d) * Cconj d - Cconj b * (d * Cconj d))%C; [ring|]. rewrite H01', Hdd. ring. }
  rewrite Hx. unfold dot. cbn [fst snd]. rewrite Ed, Eb.
  transitivity (- (2 * snd (a * Cconj b)%C * b1 + 2 * fst (a * Cconj b)%C * b2 + (Cnorm2 a - Cnorm2 c) * b3))%R; [cbn; ring|]. ring.
Qed.
Lemma dot_comm a b : dot a b = dot b a.
Proof. destruct a as [[a1 a2] a3], b as [[b1 b2] b3]. cbn. ring. Qed.
Lemma dot_range a b : dot a a = 1%R -> dot b b = 1%R -> (-1 <= dot a b <= 1)%R.
Proof.
  destruct a as [[a1 a2] a3], b as [[b1 b2] b3]. cbn. intros Ha Hb.
  pose proof (Rle_0_sqr (a1 - b1)). pose proof (Rle_0_sqr (a2 - b2)). pose proof (Rle_0_sqr (a3 - b3)).
  pose proof (Rle_0_sqr (a1 + b1)). pose proof (Rle_0_sqr (a2 + b2)). pose proof (Rle_0_sqr (a3 + b3)). unfold Rsqr in *. split; lra.
Qed.
Lemma pair_value_range p st : pair_ok p -> sees st -> (0 <= pair_value p st <= 1 / 2)%R.
Proof.
  intros (Hq & HA & HB) [Hs Ht]. unfold pair_value.
  pose proof (signed_root_range (p_q p) _ Hq (dot_range _ _ (poincare_unit _ (unitary_row _ _ HA Hs)) (poincare_unit _ (unitary_row _ _ HB Ht)))). lra.
Qed.
Lemma pair_value_A p s : pair_ok p -> s < 2 -> (pair_value p (s, 0%nat) + pair_value p (s, 1%nat) = 1 / 2)%R.
Proof.
  intros (Hq & HA & HB) Hs. unfold pair_value. cbn [fst snd]. rewrite (dot_comm _ (poincare (p_B p 1))), antiparallel, signed_root_odd by exact HB. rewrite dot_comm. field.
Qed.
Lemma pair_value_B p t : pair_ok p -> t < 2 -> (pair_value p (0%nat, t) + pair_value p (1%nat, t) = 1 / 2)%R.
Proof. intros (Hq & HA & HB) Ht. unfold pair_value. cbn [fst snd]. rewrite antiparallel, signed_root_odd by exact HA. field. Qed.

(** The probability of an outcome lies between 0 and 2^-d, and so below the weight. *)
Theorem C42_range ps o x : Forall pair_ok ps -> In o (all_outcomes (length ps)) -> outcome_has ps o x -> (0 <= x <= (1 / 2) ^ length ps)%R /\ (x <= 1)%R.
Proof.
  intros Hok Ho Hx. apply (outcome_unique _ _ _ Hok) in Hx. apply all_outcomes_spec in Ho. destruct Ho as [Lo Ho]. subst x.
  assert (K : (0 <= fold_right (fun z r => pair_value (fst z) (snd z) * r)%R 1%R (combine ps o) <= (1 / 2) ^ length ps)%R).
  { revert o Lo Ho. induction Hok as [|p ps Hp _ IH]; intros [|st o] Lo Ho; try discriminate; [cbn; lra|]. inversion Ho; subst. cbn [combine fold_right fst snd length pow].
    specialize (IH o ltac:(now injection Lo) ltac:(assumption)). assert (Hv : (0 <= pair_value p st <= 1 / 2)%R) by now apply pair_value_range. nra. }
  split; [exact K|]. apply Rle_trans with (1 := proj2 K). clear. induction (length ps) as [|n IH]; [cbn; lra|]. cbn [pow]. assert (0 < (1 / 2) ^ n)%R by (apply pow_lt; lra). lra.
Qed.

Lemma sum_outcomes ps (f : pr_pair -> nat * nat -> R) : Rsum (all_outcomes (length ps)) (fun o => fold_right (fun z r => f (fst z) (snd z) * r)%R 1%R (combine ps o)) =
  fold_right (fun p r => (f p (0%nat, 0%nat) + f p (0%nat, 1%nat) + f p (1%nat, 0%nat) + f p (1%nat, 1%nat)) * r)%R 1%R ps.
Proof.
  induction ps as [|p ps IH]; [unfold Rsum; cbn; ring|]. cbn [length all_outcomes fold_right]. rewrite <- IH. rewrite Rsum_flat_map. 
  transitivity (Rsum [(0, 0); (0, 1); (1, 0); (1, 1)] (fun st => f p st * Rsum (all_outcomes (length ps)) (fun o => fold_right (fun z r => f (fst z) (snd z) * r)%R 1%R (combine ps o)))%R).
  - apply Rsum_ext. intros st _. rewrite Rsum_map, <- Rsum_scal_l. apply Rsum_ext. intros o _. reflexivity.
  - rewrite !Rsum_cons. unfold Rsum at 5. cbn [fold_right]. ring.
Qed.

(** Over all outcomes the probabilities add up to the weight of the input state. *)
Theorem C42_total ps X : Forall pair_ok ps -> (forall o, In o (all_outcomes (length ps)) -> outcome_has ps o (X o)) -> Rsum (all_outcomes (length ps)) X = 1%R.
Proof.
  intros Hok HX. transitivity (Rsum (all_outcomes (length ps)) (fun o => fold_right (fun z r => pair_value (fst z) (snd z) * r)%R 1%R (combine ps o))).
  - apply Rsum_ext. intros o Ho. apply outcome_unique; auto.
  - rewrite sum_outcomes. induction Hok as [|p ps Hp Hok IH]; [reflexivity|]. cbn [fold_right].
    pose proof (pair_value_A p 0 Hp ltac:(lia)). pose proof (pair_value_A p 1 Hp ltac:(lia)).
    assert (E : fold_right (fun p r => (pair_value p (0%nat, 0%nat) + pair_value p (0%nat, 1%nat) + pair_value p (1%nat, 0%nat) + pair_value p (1%nat, 1%nat)) * r)%R 1%R ps = 1%R).
    { clear - Hok. induction Hok as [|p ps Hp Hok IH]; [reflexivity|]. cbn [fold_right]. rewrite IH. pose proof (pair_value_A p 0 Hp ltac:(lia)). pose proof (pair_value_A p 1 Hp ltac:(lia)). lra. }
    rewrite E. lra.
Qed.

(** Whatever one side finds, it finds with probability 2^-d: independent of the settings of both
    sides and of the quantumness. *)
Theorem C42_no_signalling_A ps ss X : Forall pair_ok ps -> In ss (all_detectors (length ps)) ->
  (forall ts, In ts (all_detectors (length ps)) -> outcome_has ps (combine ss ts) (X ts)) -> Rsum (all_detectors (length ps)) X = ((1 / 2) ^ length ps)%R.
Proof.
  intros Hok Hss HX. transitivity (Rsum (all_detectors (length ps)) (fun ts => fold_right (fun z r => pair_value (fst z) (snd z) * r)%R 1%R (combine ps (combine ss ts)))).
  - apply Rsum_ext. intros ts Hts. apply outcome_unique; auto.
  - clear X HX. revert ss Hss. induction Hok as [|p ps Hp _ IH]; intros ss Hss; [unfold Rsum; cbn; ring|]. cbn [length all_detectors] in Hss |- *. apply in_flat_map in Hss. destruct Hss as (s & Hs & Hss).
    apply in_map_iff in Hss. destruct Hss as (ss' & <- & Hss). assert (Hs2 : s < 2) by (destruct Hs as [<-|[<-|[]]]; lia). specialize (IH ss' Hss).
    rewrite Rsum_flat_map. cbn [pow]. rewrite <- IH. transitivity (Rsum [0; 1] (fun t => pair_value p (s, t) * Rsum (all_detectors (length ps)) (fun ts => fold_right (fun z r => pair_value (fst z) (snd z) * r)%R 1%R (combine ps (combine ss' ts))))%R).
    + apply Rsum_ext. intros t _. rewrite Rsum_map, <- Rsum_scal_l. apply Rsum_ext. intros ts _. reflexivity.
    + rewrite !Rsum_cons. unfold Rsum at 3. cbn [fold_right]. rewrite <- (pair_value_A p s Hp Hs2). ring.
Qed.
Theorem C42_no_signalling_B ps ts X : Forall pair_ok ps -> In ts (all_detectors (length ps)) ->
  (forall ss, In ss (all_detectors (length ps)) -> outcome_has ps (combine ss ts) (X ss)) -> Rsum (all_detectors (length ps)) X = ((1 / 2) ^ length ps)%R.
Proof.
  intros Hok Hts HX. transitivity (Rsum (all_detectors (length ps)) (fun ss => fold_right (fun z r => pair_value (fst z) (snd z) * r)%R 1%R (combine ps (combine ss ts)))).
  - apply Rsum_ext. intros ss Hss. apply outcome_unique; auto.
  - clear X HX. revert ts Hts. induction Hok as [|p ps Hp _ IH]; intros ts Hts; [unfold Rsum; cbn; ring|]. cbn [length all_detectors] in Hts |- *. apply in_flat_map in Hts. destruct Hts as (t & Ht & Hts).
    apply in_map_iff in Hts. destruct Hts as (ts' & <- & Hts). assert (Ht2 : t < 2) by (destruct Ht as [<-|[<-|[]]]; lia). specialize (IH ts' Hts).
    rewrite Rsum_flat_map. cbn [pow]. rewrite <- IH. transitivity (Rsum [0; 1] (fun s => pair_value p (s, t) * Rsum (all_detectors (length ps)) (fun ss => fold_right (fun z r => pair_value (fst z) (snd z) * r)%R 1%R (combine ps (combine ss ts'))))%R).
    + apply Rsum_ext. intros s _. rewrite Rsum_map, <- Rsum_scal_l. apply Rsum_ext. intros ss _. reflexivity.
    + rewrite !Rsum_cons. unfold Rsum at 3. cbn [fold_right]. rewrite <- (pair_value_B p t Hp Ht2). ring.
Qed.

(** ** Quantumness 1 *)
Lemma signed_root_1 x : signed_root 1 x = x.
Proof.
  unfold signed_root. replace (1 / 1)%R with 1%R by field. destruct (Rlt_dec 0 x); [now apply Rpower_1|]. destruct (Rlt_dec x 0); [rewrite Rpower_1 by lra; ring|lra].
Qed.
Lemma pair_value_1 p st : pair_ok p -> sees st -> p_q p = 1%R ->
  pair_value p st = Cnorm2 (RtoC (sqrt (1 / 2)) * (p_A p (fst st) 0%nat * Cconj (p_B p (snd st) 0%nat) + p_A p (fst st) 1%nat * Cconj (p_B p (snd st) 1%nat)))%C.
Proof.
  intros (_ & HA & HB) [Hs Ht] Hq. unfold pair_value. rewrite Hq, signed_root_1. rewrite Cnorm2_mult, Cnorm2_RtoC, half_sqrt.
  pose proof (unitary_row _ _ HA Hs) as EA. pose proof (unitary_row _ _ HB Ht) as EB. unfold norm_of, Cnorm2 in EA, EB. unfold poincare, dot, Cnorm2.
  destruct (p_A p (fst st) 0%nat) as [a b], (p_A p (fst st) 1%nat) as [c d], (p_B p (snd st) 0%nat) as [e f], (p_B p (snd st) 1%nat) as [g h]. cbn in *.
  replace 1%R with ((a * a + b * b + (c * c + d * d)) * (e * e + f * f + (g * g + h * h)))%R at 1 by (rewrite EA, EB; ring). field.
Qed.

(** With quantumness 1 the probabilities are those of the state (hh + vv)/sqrt 2 when the rows of
    side B are conjugated ... *)
Theorem C42_quantum_conjugated ps o x : Forall pair_ok ps -> Forall (fun p => p_q p = 1%R) ps -> In o (all_outcomes (length ps)) -> outcome_has ps o x ->
  x = quantum_outcome (map conjugated ps) o.
Proof.
  intros Hok Hq Ho Hx. apply (outcome_unique _ _ _ Hok) in Hx. subst x. apply all_outcomes_spec in Ho. destruct Ho as [Lo Ho]. unfold quantum_outcome.
  revert o Lo Ho Hq. induction Hok as [|p ps Hp _ IH]; intros [|st o] Lo Ho Hq; try discriminate; [reflexivity|]. inversion Ho; inversion Hq; subst. cbn [map combine fold_right fst snd].
  rewrite <- IH by (auto; now injection Lo). f_equal. rewrite pair_value_1 by auto. reflexivity.
Qed.
(** ... and so they are the predictions for (hh + vv)/sqrt 2, as documented, if for every pair one
    of the sides measures linear polarisations. *)
Theorem C42_quantum_partial ps o x : Forall pair_ok ps -> Forall (fun p => p_q p = 1%R /\ (linear_setting (p_A p) \/ linear_setting (p_B p))) ps ->
  In o (all_outcomes (length ps)) -> outcome_has ps o x -> x = quantum_outcome ps o.
Proof.
  intros Hok Hq Ho Hx. assert (Hq1 : Forall (fun p => p_q p = 1%R) ps) by (eapply Forall_impl; [|exact Hq]; now intros ? []).
  rewrite (C42_quantum_conjugated ps o x Hok Hq1 Ho Hx). clear Hx Hq1 x.
  apply all_outcomes_spec in Ho. destruct Ho as [Lo Ho]. unfold quantum_outcome. clear Hok.
  revert o Lo Ho. induction Hq as [|p ps [_ Hl] _ IH]; intros [|[s t] o] Lo Ho; try discriminate; [reflexivity|]. inversion Ho as [|? ? [Hs Ht] Ho']; subst. cbn [map combine fold_right fst snd] in *.
  rewrite IH by (auto; now injection Lo). f_equal. unfold quantum_pair, conjugated. cbn [p_A p_B fst snd]. rewrite !(Cnorm2_mult (RtoC (sqrt (1 / 2)))). f_equal. destruct Hl as [Hl|Hl].
  - destruct (Hl s Hs) as (c & r & E). rewrite !E by lia.
    transitivity (Cnorm2 c * Cnorm2 (RtoC (r 0%nat) * p_B p t 0%nat + RtoC (r 1%nat) * p_B p t 1%nat)%C)%R.
    + rewrite <- (Cnorm2_conj (RtoC (r 0%nat) * _ + _)%C), <- Cnorm2_mult. f_equal. rewrite Cconj_plus, !Cconj_mult, !Cconj_RtoC. ring.
    + rewrite <- Cnorm2_mult. f_equal. ring.
  - destruct (Hl t Ht) as (c & r & E). rewrite !E by lia. rewrite !Cconj_mult, !Cconj_RtoC.
    transitivity (Cnorm2 c * Cnorm2 (RtoC (r 0%nat) * p_A p s 0%nat + RtoC (r 1%nat) * p_A p s 1%nat)%C)%R.
    + rewrite <- (Cnorm2_conj c), <- Cnorm2_mult. f_equal. ring.
    + rewrite <- Cnorm2_mult. f_equal. ring.
Qed.

Lemma amplitudes_in_all ps o : amplitudes_in ps o (map (fun w => (w, amplitude_of ps o w)) (all_words (length ps))).
Proof.
  split; [rewrite map_map; cbn; rewrite map_id; apply all_words_NoDup|]. split.
  - intros w a H. apply in_map_iff in H. destruct H as (w' & E & Hw). injection E as -> <-. apply all_words_spec in Hw. destruct Hw. auto.
  - intros w Lw Fw Hn. exfalso. apply Hn. rewrite map_map. cbn. rewrite map_id. apply all_words_spec. auto.
Qed.

(** Circular analysis on both sides: rows (1, i)/sqrt 2 and (i, 1)/sqrt 2. *)
Definition circular (s i : nat) : C := if s =? i then RtoC (sqrt (1 / 2)) else (RtoC (sqrt (1 / 2)) * Ci)%C.
Lemma circular_unitary : unitary_setting circular.
Proof.
  pose proof half_sqrt as H. intros s s' Hs Hs'. destruct s as [|[|s]]; [| |lia]; (destruct s' as [|[|s']]; [| |lia]); unfold circular; cbn [Nat.eqb]; apply C_eq; cbn; lra.
Qed.
(** In general the documented equality fails: two circular analysers never both click with
    detector 0 on (hh + vv)/sqrt 2; the code gives this outcome probability 1/2. *)
Theorem C42_quantum_refuted : exists p dict, pair_ok p /\ p_q p = 1%R /\ amplitudes_in [p] [(0, 0)] dict /\
  outcome_probability [p_q p] 1 dict = Some (1 / 2)%R /\ quantum_outcome [p] [(0, 0)] = 0%R.
Proof.
  exists (Pair 1 circular circular), (map (fun w => (w, amplitude_of [Pair 1 circular circular] [(0, 0)] w)) (all_words 1)).
  assert (Hp : pair_ok (Pair 1 circular circular)) by (split; [cbn; lra|split; apply circular_unitary]).
  split; [exact Hp|]. split; [reflexivity|]. split; [apply (amplitudes_in_all [_])|]. split.
  - change [p_q (Pair 1 circular circular)] with (map p_q [Pair 1 circular circular]). rewrite (outcome_probability_value _ [(0, 0)]); [|discriminate|repeat constructor; [cbn; lra|apply circular_unitary|apply circular_unitary]|apply all_outcomes_spec; repeat constructor|apply (amplitudes_in_all [_])].
    f_equal. cbn [combine fold_right fst snd p_q p_A p_B]. rewrite signed_root_1, poincare_unit by (apply unitary_row; [apply circular_unitary|lia]). field.
  - unfold quantum_outcome, quantum_pair, circular. cbn. pose proof half_sqrt. unfold Cnorm2. cbn. ring.
Qed.

Lemma bell_vector M : let s := RtoC (sqrt (1 / 2)) in
  M 0 [0] = s -> M 0 [1] = RtoC 0 -> M 1 [0] = RtoC 0 -> M 1 [1] = s ->
  exists v, vector_from_matrix 2 [[0]; [1]] M = Some v /\ v 0 = s /\ v 1 = s.
Proof.
  intros s H00 H01 H10 H11. pose proof half_sqrt as H2.
  assert (Hs0 : (0 < sqrt (1 / 2))%R) by (apply sqrt_lt_R0; lra).
  assert (Ns : Cnorm2 s = (1 / 2)%R) by (unfold s; rewrite Cnorm2_RtoC; exact H2).
  assert (Hsc : s <> RtoC 0) by (unfold s; intros E; apply RtoC_inj in E; lra).
  unfold vector_from_matrix. cbv zeta. cbn [list_prod seq map app].
  assert (ET : Rsum [(0, [0]); (0, [1]); (1, [0]); (1, [1])] (fun x => Cnorm2 (M (fst x) (snd x))) = 1%R).
  { unfold Rsum. cbn [fold_right fst snd]. rewrite H00, H01, H10, H11, Ns, Cnorm2_zero. lra. }
  rewrite ET. destruct (Req_EM_T 1 0) as [E|_]; [lra|]. cbn [argmax_of argmax fst snd]. rewrite H00, H01, Ns, Cnorm2_zero. destruct (Rlt_dec (1 / 2) 0) as [E|_]; [lra|].
  cbn [fst snd]. rewrite H00, H10, Ns, Cnorm2_zero. destruct (Rlt_dec (1 / 2) 0) as [E|_]; [lra|]. cbn [fst snd]. rewrite H00, H11, Ns. destruct (Rlt_dec (1 / 2) (1 / 2)) as [E|_]; [lra|].
  cbn [fst snd]. rewrite H00. eexists. split; [reflexivity|]. cbv beta. rewrite sqrt_1.
  assert (ER : forall i, i < 2 -> Rsum [[0]; [1]] (fun w => Cnorm2 (M i w)) = (1 / 2)%R).
  { intros [|[|i]] Hi; [| |lia]; unfold Rsum; cbn [fold_right]; rewrite ?H00, ?H01, ?H10, ?H11, Ns, Cnorm2_zero; lra. }
  assert (ES : Rsum [0; 1] (fun i => Rsum [[0]; [1]] (fun w => Cnorm2 (M i w))) = 1%R) by (unfold Rsum at 1; cbn [fold_right]; rewrite !ER by lia; lra).
  rewrite ES, !ER by lia. replace (1 / 2 / 1)%R with (1 / 2)%R by field. fold s. rewrite H10, H00.
  assert (S1 : forall z, (z / RtoC 1)%C = z) by (intros z; unfold Cdiv; rewrite <- RtoC_inv, Rinv_1 by lra; ring). rewrite S1. assert (Cs : Cmod s = sqrt (1 / 2)) by (unfold s; rewrite Cmod_R; apply Rabs_right; lra). rewrite Cs. fold s.
  assert (E1 : forall z, (z / (s / s))%C = z) by (intros z; unfold Cdiv at 2; rewrite Cinv_r by exact Hsc; apply S1). rewrite !E1.
  split; [unfold unit_of; destruct (Ceq_dec s _); [contradiction|]; rewrite Cs; fold s; unfold Cdiv; rewrite Cinv_r by exact Hsc; ring|unfold unit_of; destruct (Ceq_dec _ _); [ring|contradiction]].
Qed.
(** The check for entanglement (line 311) never fires for one pair: the amplitudes of this
    dictionary are no product of amplitudes of the two photons, but a probability is returned. *)
Theorem C42_entanglement_check_refuted : exists dict,
  (forall a b : nat -> C, exists i, i < 4 /\ tensor_of dict [i] <> (a (i / 2)%nat * b (i mod 2)%nat)%C) /\
  forall q weight, (0 < q)%R -> outcome_probability [q] weight dict = Some weight.
Proof.
  exists [([0], RtoC (sqrt (1 / 2))); ([3], RtoC (sqrt (1 / 2)))]. pose proof half_sqrt as H2.
  assert (Hs0 : (0 < sqrt (1 / 2))%R) by (apply sqrt_lt_R0; lra).
  assert (Hsc : RtoC (sqrt (1 / 2)) <> RtoC 0) by (intros E; apply RtoC_inj in E; lra).
  split.
  - intros a b. unfold tensor_of. destruct (Ceq_dec (a 0%nat * b 0%nat)%C (RtoC (sqrt (1 / 2)))) as [E0|E0]; [|exists 0; split; [lia|cbn; auto]].
    destruct (Ceq_dec (a 1%nat * b 1%nat)%C (RtoC (sqrt (1 / 2)))) as [E3|E3]; [|exists 3; split; [lia|cbn; auto]].
    exists 1. split; [lia|]. cbn. intros E. assert (Hp : ((a 0%nat * b 1%nat) * (a 1%nat * b 0%nat))%C = (RtoC (sqrt (1 / 2)) * RtoC (sqrt (1 / 2)))%C) by (rewrite <- E0 at 1; rewrite <- E3; ring).
    rewrite <- E, Cmult_0_l in Hp. symmetry in Hp. revert Hp. now apply Cmult_neq_0.
  - intros q weight Hq. unfold outcome_probability. cbn [length]. set (T := tensor_of _).
    assert (T0 : T [0] = RtoC (sqrt (1 / 2))) by reflexivity. assert (T1 : T [1] = RtoC 0) by reflexivity. assert (T2 : T [2] = RtoC 0) by reflexivity. assert (T3 : T [3] = RtoC (sqrt (1 / 2))) by reflexivity.
    unfold reproduced_vectors. cbn [Nat.ltb Nat.leb]. cbn [map option_list].
    destruct (bell_vector (fun a r => T [2 * a + hd 0 r])) as (v1 & E1 & V10 & V11); auto.
    destruct (bell_vector (fun b r => T [2 * hd 0 r + b])) as (v2 & E2 & V20 & V21); auto.
    assert (EP : photon_amplitudes (fun i => T [i]) = Some (v1, v2)) by (unfold photon_amplitudes; now rewrite E1, E2). rewrite EP. cbn [map option_list fst snd].
    assert (Ns : Cnorm2 (RtoC (sqrt (1 / 2))) = (1 / 2)%R) by (rewrite Cnorm2_RtoC; exact H2).
    assert (N1 : norm_of v1 = 1%R) by (unfold norm_of; rewrite V10, V11, Ns; lra). assert (N2 : norm_of v2 = 1%R) by (unfold norm_of; rewrite V20, V21, Ns; lra).
    rewrite !stokes_poincare by assumption.
    assert (ED : dict_factorable 1 T [fun i => T [i]] = true).
    { unfold dict_factorable. rewrite (difference_scaled (all_words 1) T _ (RtoC 1)).
      - unfold below, Rltb. destruct (Rlt_dec 0 1); [reflexivity|lra].
      - intros E. apply RtoC_inj in E. lra.
      - unfold Rsum. cbn [all_words seq flat_map map app fold_right]. rewrite T0, T1, T2, T3, Ns, Cnorm2_zero. lra.
      - intros w Hw. apply all_words_spec in Hw. destruct Hw as [Lw _]. destruct w as [|i [|j w]]; try discriminate. cbn. ring. }
    rewrite ED. cbn [negb andb length Nat.ltb Nat.leb combine fold_left fst snd]. f_equal.
    assert (EQ : poincare v2 = poincare v1) by (unfold poincare; rewrite V10, V11, V20, V21; reflexivity). rewrite EQ.
    unfold alignment_probability. rewrite inner3_dot, poincare_unit by exact N1. rewrite Rmult_1_l, sqrt_1. replace (1 / 1)%R with 1%R by field.
    unfold signed_root. destruct (Rlt_dec 0 1) as [_|E]; [|lra]. replace (Rpower 1 (1 / q)) with 1%R by (unfold Rpower; rewrite ln_1, Rmult_0_r, exp_0; reflexivity).
    unfold Rsum. cbn [fold_right snd]. rewrite Ns. field.
Qed.

(** ** CHSH *)
Lemma pair_correlator p P : pair_ok p -> (forall s t, s < 2 -> t < 2 -> pair_probability p (s, t) (P s t)) ->
  correlator P = signed_root (p_q p) (dot (poincare (p_A p 0)) (poincare (p_B p 0))).
Proof.
  intros Hp HP. assert (HV : forall s t, s < 2 -> t < 2 -> P s t = pair_value p (s, t)) by (intros s t Hs Ht; apply pair_probability_unique; auto).
  unfold correlator. rewrite !HV by lia. destruct Hp as (Hq & HA & HB).
  pose proof (pair_value_A p 0 (conj Hq (conj HA HB)) ltac:(lia)). pose proof (pair_value_A p 1 (conj Hq (conj HA HB)) ltac:(lia)).
  pose proof (pair_value_B p 0 (conj Hq (conj HA HB)) ltac:(lia)). pose proof (pair_value_B p 1 (conj Hq (conj HA HB)) ltac:(lia)).
  assert (E : (pair_value p (0%nat, 0%nat) * 4 = 1 + signed_root (p_q p) (dot (poincare (p_A p 0%nat)) (poincare (p_B p 0%nat))))%R) by (unfold pair_value; cbn [fst snd]; field). lra.
Qed.
(** [E i j]: the correlator for setting i of side A and setting j of side B, quantumness [q]. *)
Definition correlators (q : R) (A B : nat -> nat -> nat -> C) (E : nat -> nat -> R) : Prop :=
  forall i j, i < 2 -> j < 2 -> exists P, (forall s t, s < 2 -> t < 2 -> pair_probability (Pair q (A i) (B j)) (s, t) (P s t)) /\ E i j = correlator P.

(** No choice of settings gives more than 4 ... *)
Theorem C46_algebraic_bound q A B E : (0 < q)%R -> (forall i, i < 2 -> unitary_setting (A i)) -> (forall j, j < 2 -> unitary_setting (B j)) -> correlators q A B E ->
  (-4 <= chsh_of E <= 4)%R.
Proof.
  intros Hq HA HB HE. assert (K : forall i j, i < 2 -> j < 2 -> (-1 <= E i j <= 1)%R).
  { intros i j Hi Hj. destruct (HE i j Hi Hj) as (P & HP & ->). rewrite (pair_correlator (Pair q (A i) (B j))); [|split; [exact Hq|split; [apply HA|apply HB]; assumption]|exact HP].
    apply signed_root_range; [exact Hq|]. apply dot_range; apply poincare_unit; (apply unitary_row; [|lia]); [apply HA|apply HB]; assumption. }
  unfold chsh_of. pose proof (K 0 0 ltac:(lia) ltac:(lia)). pose proof (K 0 1 ltac:(lia) ltac:(lia)). pose proof (K 1 0 ltac:(lia) ltac:(lia)). pose proof (K 1 1 ltac:(lia) ltac:(lia)). lra.
Qed.
Lemma tsirelson_vectors a a' b b' : dot a a = 1%R -> dot a' a' = 1%R -> dot b b = 1%R -> dot b' b' = 1%R ->
  (Rsqr (dot a b + dot a b' + dot a' b - dot a' b') <= 8)%R.
Proof.
  destruct a as [[a1 a2] a3], a' as [[c1 c2] c3], b as [[b1 b2] b3], b' as [[d1 d2] d3]. unfold dot. intros Ha Hc Hb Hd.
  set (p1 := (b1 + d1)%R). set (p2 := (b2 + d2)%R). set (p3 := (b3 + d3)%R). set (m1 := (b1 - d1)%R). set (m2 := (b2 - d2)%R). set (m3 := (b3 - d3)%R).
  set (u := (a1 * p1 + a2 * p2 + a3 * p3)%R). set (w := (c1 * m1 + c2 * m2 + c3 * m3)%R).
  replace (a1 * b1 + a2 * b2 + a3 * b3 + (a1 * d1 + a2 * d2 + a3 * d3) + (c1 * b1 + c2 * b2 + c3 * b3) - (c1 * d1 + c2 * d2 + c3 * d3))%R with (u + w)%R by (unfold u, w, p1, p2, p3, m1, m2, m3; ring).
  assert (Hpm : (p1 * p1 + p2 * p2 + p3 * p3 + (m1 * m1 + m2 * m2 + m3 * m3) = 4)%R).
  { unfold p1, p2, p3, m1, m2, m3. transitivity (2 * (b1 * b1 + b2 * b2 + b3 * b3) + 2 * (d1 * d1 + d2 * d2 + d3 * d3))%R; [ring|]. rewrite Hb, Hd. ring. }
  assert (CS : forall x1 x2 x3 y1 y2 y3 : R, (Rsqr (x1 * y1 + x2 * y2 + x3 * y3) <= (x1 * x1 + x2 * x2 + x3 * x3) * (y1 * y1 + y2 * y2 + y3 * y3))%R).
  { intros. pose proof (Rle_0_sqr (x1 * y2 - x2 * y1)). pose proof (Rle_0_sqr (x1 * y3 - x3 * y1)). pose proof (Rle_0_sqr (x2 * y3 - x3 * y2)). unfold Rsqr in *. nra. }
  pose proof (CS a1 a2 a3 p1 p2 p3) as Cu. pose proof (CS c1 c2 c3 m1 m2 m3) as Cw. fold u in Cu. fold w in Cw. rewrite Ha in Cu. rewrite Hc in Cw.
  pose proof (Rle_0_sqr (u - w)). unfold Rsqr in *. lra.
Qed.
(** ... with quantumness 1 no choice of settings gives more than 2 sqrt 2, Tsirelson's bound ... *)
Theorem C46_tsirelson A B E : (forall i, i < 2 -> unitary_setting (A i)) -> (forall j, j < 2 -> unitary_setting (B j)) -> correlators 1 A B E ->
  (- (2 * sqrt 2) <= chsh_of E <= 2 * sqrt 2)%R.
Proof.
  intros HA HB HE. assert (K : forall i j, i < 2 -> j < 2 -> E i j = dot (poincare (A i 0)) (poincare (B j 0))).
  { intros i j Hi Hj. destruct (HE i j Hi Hj) as (P & HP & ->). rewrite (pair_correlator (Pair 1 (A i) (B j))); [cbn [p_q p_A p_B]; apply signed_root_1| |exact HP].
    split; [cbn; lra|split; [apply HA|apply HB]; assumption]. }
  unfold chsh_of. rewrite !K by lia.
  assert (U : forall X : nat -> nat -> nat -> C, (forall i, i < 2 -> unitary_setting (X i)) -> forall i, i < 2 -> dot (poincare (X i 0)) (poincare (X i 0)) = 1%R).
  { intros X HX i Hi. apply poincare_unit, unitary_row; [now apply HX|lia]. }
  pose proof (tsirelson_vectors _ _ _ _ (U A HA 0 ltac:(lia)) (U A HA 1 ltac:(lia)) (U B HB 0 ltac:(lia)) (U B HB 1 ltac:(lia))) as H.
  set (x := (_ + _ + _ - _)%R) in *. assert (H8 : (Rsqr (2 * sqrt 2) = 8)%R) by (unfold Rsqr; transitivity (4 * (sqrt 2 * sqrt 2))%R; [ring|]; rewrite sqrt_sqrt by lra; ring).
  rewrite <- H8 in H. apply Rsqr_le_abs_0 in H. pose proof (sqrt_pos 2). rewrite (Rabs_right (2 * sqrt 2)) in H by lra. pose proof (Rle_abs x). pose proof (Rle_abs (- x)). rewrite Rabs_Ropp in *. lra.
Qed.
Lemma rotated_unitary x : unitary_setting (rotated x).
Proof.
  pose proof (sin2_cos2 x) as H. unfold Rsqr in H. intros s s' Hs Hs'. destruct s as [|[|s]]; [| |lia]; (destruct s' as [|[|s']]; [| |lia]); apply C_eq; cbn; lra.
Qed.
Lemma rotated_dot x y : dot (poincare (rotated x 0)) (poincare (rotated y 0)) = cos (2 * (x - y)).
Proof.
  unfold poincare, dot, Cnorm2. cbn. replace (2 * (x - y))%R with (2 * x - 2 * y)%R by ring. rewrite cos_minus, !cos_2a, !sin_2a. ring.
Qed.
(** ... and with the settings 0, 45 degrees and 22.5, -22.5 degrees the value is 4 * 2^(-1/(2q)). *)
Definition standard_A (i : nat) : nat -> nat -> C := rotated (if i =? 0 then 0 else PI / 4)%R.
Definition standard_B (j : nat) : nat -> nat -> C := rotated (if j =? 0 then PI / 8 else - (PI / 8))%R.
Theorem C46_value q E : (0 < q)%R -> correlators q standard_A standard_B E -> chsh_of E = (4 * Rpower 2 (- / (2 * q)))%R.
Proof.
  intros Hq HE. assert (K : forall i j, i < 2 -> j < 2 -> E i j = signed_root q (cos (2 * ((if i =? 0 then 0 else PI / 4) - (if j =? 0 then PI / 8 else - (PI / 8)))))%R).
  { intros i j Hi Hj. destruct (HE i j Hi Hj) as (P & HP & ->). rewrite (pair_correlator (Pair q (standard_A i) (standard_B j))); [|split; [exact Hq|split; apply rotated_unitary]|exact HP].
    cbn [p_q p_A p_B]. unfold standard_A, standard_B. now rewrite rotated_dot. }
  unfold chsh_of. rewrite !K by lia. cbn [Nat.eqb].
  replace (2 * (0 - PI / 8))%R with (- (PI / 4))%R by field. replace (2 * (0 - - (PI / 8)))%R with (PI / 4)%R by field.
  replace (2 * (PI / 4 - PI / 8))%R with (PI / 4)%R by field. replace (2 * (PI / 4 - - (PI / 8)))%R with (PI - PI / 4)%R by field.
  rewrite cos_neg. replace (cos (PI - PI / 4)) with (- cos (PI / 4))%R by (rewrite cos_minus, cos_PI, sin_PI; ring).
  rewrite signed_root_odd, cos_PI4.
  assert (H2 : (1 / sqrt 2 = Rpower 2 (- / 2))%R) by (rewrite Rpower_Ropp, Rpower_sqrt by lra; unfold Rdiv; ring).
  assert (HV : signed_root q (1 / sqrt 2) = Rpower 2 (- / (2 * q))).
  { rewrite H2. unfold signed_root. destruct (Rlt_dec 0 _) as [_|H]; [|exfalso; apply H, exp_pos]. rewrite Rpower_mult. f_equal. field. lra. }
  rewrite HV. ring.
Qed.
(** So every quantumness above 1 violates Tsirelson's bound, and the maximum 4 is approached. *)
Theorem C46_superquantum q E : (1 < q)%R -> correlators q standard_A standard_B E -> (2 * sqrt 2 < chsh_of E)%R.
Proof.
  intros Hq HE. rewrite (C46_value q E) by (auto; lra). replace (2 * sqrt 2)%R with (4 * Rpower 2 (- / 2))%R.
  - apply Rmult_lt_compat_l; [lra|]. apply Rpower_lt; [lra|]. assert (/ (2 * q) < / 2)%R by (apply Rinv_lt_contravar; lra). lra.
  - rewrite Rpower_Ropp, Rpower_sqrt by lra. replace 4%R with (2 * (sqrt 2 * sqrt 2))%R by (rewrite sqrt_sqrt by lra; ring). field. apply Rgt_not_eq. apply sqrt_lt_R0. lra.
Qed.
Theorem C46_limit delta : (0 < delta)%R -> exists Q, (0 < Q)%R /\ forall q E, (Q < q)%R -> correlators q standard_A standard_B E -> (4 - delta < chsh_of E)%R.
Proof.
  intros Hd. destruct (Rle_dec 4 delta) as [H4|H4].
  - exists 1%R. split; [lra|]. intros q E Hq HE. rewrite (C46_value q E) by (auto; lra). assert (0 < Rpower 2 (- / (2 * q)))%R by apply exp_pos. lra.
  - set (x := ln ((4 - delta) / 4)). assert (Hx : (x < 0)%R).
    { unfold x. rewrite <- ln_1. apply ln_increasing; lra. }
    assert (Hl2 : (0 < ln 2)%R) by (rewrite <- ln_1; apply ln_increasing; lra).
    exists (ln 2 / (2 * - x))%R. split; [apply Rdiv_lt_0_compat; lra|]. intros q E Hq HE.
    assert (Hq0 : (0 < q)%R) by (apply Rlt_trans with (2 := Hq); apply Rdiv_lt_0_compat; lra).
    rewrite (C46_value q E Hq0 HE). unfold Rpower.
    assert (Hlt : (x < - / (2 * q) * ln 2)%R).
    { apply (Rmult_lt_compat_r (2 * - x)) in Hq; [|lra]. replace (ln 2 / (2 * - x) * (2 * - x))%R with (ln 2) in Hq by (field; lra).
      apply (Rmult_lt_reg_r (2 * q)); [lra|]. replace (- / (2 * q) * ln 2 * (2 * q))%R with (- ln 2)%R by (field; lra). lra. }
    apply exp_increasing in Hlt. unfold x in Hlt. rewrite exp_ln in Hlt by lra. lra.
Qed.
Example C46_case q : (0 < q)%R -> exists E, correlators q standard_A standard_B E.
Proof.
  intros Hq. exists (fun i j => correlator (fun s t => pair_value (Pair q (standard_A i) (standard_B j)) (s, t))). intros i j Hi Hj. eexists. split; [|reflexivity].
  intros s t Hs Ht. cbv beta. apply pair_probability_value. exact Hq.
Qed.
(** Two pairs behind rotated half wave plates: the hypotheses of C42 can be met. *)
Example C42_case q x y o : (0 < q)%R -> let ps := [Pair 1 (rotated x) (rotated y); Pair q circular (rotated y)] in In o (all_outcomes 2) ->
  exists dict v, amplitudes_in ps o dict /\ outcome_has ps o v /\ outcome_probability [1%R; q] (3 / 10) dict = Some (v * (3 / 10))%R.
Proof.
  intros Hq ps Ho. exists (map (fun w => (w, amplitude_of ps o w)) (all_words 2)).
  destruct (C42_probability ps o (map (fun w => (w, amplitude_of ps o w)) (all_words 2)) (3 / 10)) as (v & Hv & E).
  - discriminate.
  - apply Forall_cons; [|apply Forall_cons; [|constructor]]; (split; [cbn; lra|]); split; try apply rotated_unitary. apply circular_unitary.
  - exact Ho.
  - apply amplitudes_in_all.
  - exists v. split; [apply amplitudes_in_all|]. split; [exact Hv|exact E].
Qed.
