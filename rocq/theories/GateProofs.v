(** Lemmas about complete gates and products of gates. *)
From Coq Require Import Reals List Arith Lia Bool Permutation Lra.
From Coquelicot Require Import Complex.
From Verif Require Import Prelude NamesModel NamesSpec NamesProofs FockModel FockSpec BosonProofs FockProofs.
Import ListNotations.

(** ** Transposition *)
Lemma gam_tr A N n u : n <= N -> u <= N -> gam (mat2_tr A) N u n = gam A N n u.
Proof.
  intros Hn Hu.
  set (B := Mat2 (Cconj (m00 A)) (Cconj (m01 A)) (Cconj (m10 A)) (Cconj (m11 A))).
  assert (E : mat2_tr A = mat2_adj B).
  { unfold mat2_tr, mat2_adj, B; cbn [m00 m01 m10 m11]. now rewrite !Cconj_invol. }
  rewrite E, gam_adj by auto. unfold gam. rewrite Cconj_mult, Cconj_RtoC. f_equal.
  unfold bp, B; cbn [m00 m01 m10 m11]. rewrite boson_poly_conj. now rewrite !Cconj_invol.
Qed.

Lemma gate_amp_tr L A n m u v : gate_amp L (mat2_tr A) u v n m = gate_amp L A n m u v.
Proof.
  destruct (Nat.eq_dec (u + v) (n + m)) as [E|E].
  - destruct (le_lt_dec L (n + m)) as [HL|HL].
    + rewrite !gate_amp_high by lia. now rewrite (Nat.eqb_sym u), (Nat.eqb_sym v).
    + rewrite !gate_amp_gam by lia. rewrite E. apply gam_tr; lia.
  - rewrite !gate_amp_zero by lia. reflexivity.
Qed.

(** ** Composition *)
Lemma gate_compose L A B n m u v :
  n < L -> m < L -> u < L -> v < L ->
  Csum (seq 0 L) (fun y => Csum (seq 0 L) (fun x => gate_amp L B n m x y * gate_amp L A x y u v))%C
  = gate_amp L (mat2_mul A B) n m u v.
Proof.
  intros Hn Hm Hu Hv.
  destruct (le_lt_dec L (n + m)) as [HL|HL].
  - rewrite (Csum_single _ m); [|apply seq_NoDup|apply in_seq; lia|].
    2:{ intros y Hy Hne. apply Csum_zero. intros x Hx. rewrite gate_amp_high by auto.
        replace (m =? y) with false by (symmetry; apply Nat.eqb_neq; lia). rewrite andb_false_r. ring. }
    rewrite (Csum_single _ n); [|apply seq_NoDup|apply in_seq; lia|].
    2:{ intros x Hx Hne. rewrite gate_amp_high by auto.
        replace (n =? x) with false by (symmetry; apply Nat.eqb_neq; lia). cbn [andb]. ring. }
    rewrite !gate_amp_high by auto. rewrite !Nat.eqb_refl. cbn [andb]. ring.
  - rewrite (Csum_antidiag L (n + m)); [|auto|].
    2:{ intros x y Hne. rewrite gate_amp_zero by auto. ring. }
    destruct (Nat.eq_dec (u + v) (n + m)) as [E|E].
    + rewrite gate_amp_gam by lia. rewrite <- gam_compose by lia.
      apply Csum_ext. intros x Hx. apply in_seq in Hx.
      rewrite !gate_amp_gam by lia. replace (x + (n + m - x)) with (n + m) by lia. reflexivity.
    + rewrite (gate_amp_zero L _ n m u v) by lia. apply Csum_zero. intros x Hx. apply in_seq in Hx.
      rewrite (gate_amp_zero L A) by lia. ring.
Qed.

Lemma gate_id L n m u v :
  gate_amp L mat2_id n m u v = if (n =? u) && (m =? v) then RtoC 1 else RtoC 0.
Proof.
  destruct (le_lt_dec L (n + m)) as [HL|HL].
  - now apply gate_amp_high.
  - destruct (Nat.eq_dec (u + v) (n + m)) as [E|E].
    + rewrite gate_amp_gam, gam_id by lia. rewrite (Nat.eqb_sym u).
      destruct (n =? u) eqn:F; auto. apply Nat.eqb_eq in F.
      replace (m =? v) with true; auto. symmetry. apply Nat.eqb_eq. lia.
    + rewrite gate_amp_zero by auto.
      destruct (n =? u) eqn:F1; destruct (m =? v) eqn:F2; auto. apply Nat.eqb_eq in F1, F2. lia.
Qed.

Lemma fock2_compose L A B i j :
  i < L * L -> j < L * L ->
  Csum (seq 0 (L * L)) (fun k => fock2 L B i k * fock2 L A k j)%C = fock2 L (mat2_mul A B) i j.
Proof.
  intros Hi Hj.
  destruct (decode2 L i Hi) as (n & m & Hn & Hm & ->).
  destruct (decode2 L j Hj) as (u & v & Hu & Hv & ->).
  rewrite Csum_seq_prod, fock2_amp by auto. rewrite <- gate_compose by auto.
  apply Csum_ext. intros y Hy. apply in_seq in Hy. apply Csum_ext. intros x Hx. apply in_seq in Hx.
  rewrite !fock2_amp by lia. reflexivity.
Qed.

Lemma blockdiag_compose q r F G H i j :
  0 < q -> i < q * r -> j < q * r ->
  (forall a b, a < q -> b < q -> Csum (seq 0 q) (fun k => F a k * G k b)%C = H a b) ->
  Csum (seq 0 (q * r)) (fun k => blockdiag q F i k * blockdiag q G k j)%C = blockdiag q H i j.
Proof.
  intros Hq Hi Hj HF.
  assert (Hiq : i / q < r) by (apply Nat.div_lt_upper_bound; lia).
  assert (Him : i mod q < q) by (apply Nat.mod_upper_bound; lia).
  assert (Hjm : j mod q < q) by (apply Nat.mod_upper_bound; lia).
  rewrite Csum_seq_prod. unfold blockdiag.
  rewrite (Csum_single _ (i / q)); [|apply seq_NoDup|apply in_seq; lia|].
  - rewrite (Csum_ext _ _ (fun a => F (i mod q) a * (if i / q =? j / q then G a (j mod q) else RtoC 0))%C).
    2:{ intros a Ha. apply in_seq in Ha. rewrite two_digit_div, two_digit_mod by lia. rewrite Nat.eqb_refl. reflexivity. }
    destruct (i / q =? j / q); [now apply HF|]. apply Csum_zero. intros. ring.
  - intros b Hb Hne. apply Csum_zero. intros a Ha. apply in_seq in Ha.
    rewrite two_digit_div by lia. replace (i / q =? b) with false by (symmetry; apply Nat.eqb_neq; lia). ring.
Qed.

Lemma size_split D : 2 <= dN D -> size_of_basis D = (dL D * dL D) * dL D ^ (dN D - 2).
Proof.
  intros HN. unfold size_of_basis. replace (dN D) with (2 + (dN D - 2)) at 1 by lia. rewrite Nat.pow_add_r.
  f_equal. simpl. lia.
Qed.

Lemma full_matrix_compose D A B tl i j :
  1 <= dL D -> 2 <= dN D -> Permutation tl (seq 0 (dN D)) ->
  i < size_of_basis D -> j < size_of_basis D ->
  mat_mul (size_of_basis D) (full_matrix D B tl) (full_matrix D A tl) i j
  = full_matrix D (mat2_mul A B) tl i j.
Proof.
  intros HL HN HP Hi Hj. unfold mat_mul. rewrite full_matrix_entry by auto.
  rewrite (Csum_ext _ _ (fun k => (fun x => blockdiag (dL D * dL D) (fock2 (dL D) B) (neworder D tl i) x
      * blockdiag (dL D * dL D) (fock2 (dL D) A) x (neworder D tl j)) (neworder D tl k))%C).
  2:{ intros k Hk. apply in_seq in Hk. rewrite !full_matrix_entry by (auto; lia). reflexivity. }
  rewrite (Csum_reindex (size_of_basis D) (neworder D tl)
    (fun x => blockdiag (dL D * dL D) (fock2 (dL D) B) (neworder D tl i) x
      * blockdiag (dL D * dL D) (fock2 (dL D) A) x (neworder D tl j))%C).
  - pose proof (neworder_bound D tl i HL HP) as Bi. pose proof (neworder_bound D tl j HL HP) as Bj.
    rewrite (size_split D HN) in Bi, Bj |- *. apply blockdiag_compose; auto; [nia|].
    intros a b Ha Hb. now apply fock2_compose.
  - intros k Hk. now apply neworder_bound.
  - intros k k' Hk Hk'. now apply neworder_inj.
Qed.

(** ** Tensor lists are permutations *)
Lemma swap0_perm n c : c < n -> Permutation (swap_at 0 c (seq 0 n)) (seq 0 n).
Proof.
  intros Hc. apply (table_perm n _ (fun k => transp 0 c k)).
  - now rewrite swap_at_length, seq_length.
  - intros k Hk. rewrite nth_swap_at by (rewrite seq_length; lia). apply nth_seq0. apply transp_bound; lia.
  - intros k Hk. apply transp_bound; lia.
  - intros i j Hi Hj E. apply (f_equal (transp 0 c)) in E. now rewrite !transp_invol in E.
Qed.

Lemma tensor_list_perm n chs tl :
  2 <= n -> tensor_list_of n chs = Some tl -> Permutation tl (seq 0 n).
Proof.
  intros Hn. unfold tensor_list_of. destruct chs as [|h [|v [|x r]]].
  - intros E; injection E as <-. reflexivity.
  - destruct (h =? 0); [intros E; injection E as <-; reflexivity|].
    destruct (h <? n) eqn:Eh; [|discriminate]. apply Nat.ltb_lt in Eh.
    intros E; injection E as <-. now apply swap0_perm.
  - destruct (h =? v); [discriminate|].
    destruct ((h =? 0) && (v =? 1)); [intros E; injection E as <-; reflexivity|].
    destruct ((h =? 1) && (v =? 0)); [intros E; injection E as <-; apply swap0_perm; lia|].
    destruct ((h <? n) && (v <? n)) eqn:E1; [|discriminate].
    apply andb_true_iff in E1. rewrite !Nat.ltb_lt in E1.
    intros E; injection E as <-. apply two_swaps_perm; tauto.
  - discriminate.
Qed.

(** ** Products of matrices *)
Lemma mat_mul_ext d A A' B B' i j :
  i < d -> j < d ->
  (forall i j, i < d -> j < d -> A i j = A' i j) -> (forall i j, i < d -> j < d -> B i j = B' i j) ->
  mat_mul d A B i j = mat_mul d A' B' i j.
Proof.
  intros Hi Hj HA HB. unfold mat_mul. apply Csum_ext. intros k Hk. apply in_seq in Hk.
  rewrite HA, HB by lia. reflexivity.
Qed.

Lemma mat_mul_vec d A B v i :
  mat_vec d (mat_mul d A B) v i = mat_vec d A (mat_vec d B v) i.
Proof.
  unfold mat_vec, mat_mul.
  rewrite (Csum_ext _ _ (fun k => Csum (seq 0 d) (fun l => A i l * B l k * v k)%C)).
  2:{ intros k _. now rewrite <- Csum_scal_r. }
  rewrite Csum_swap. apply Csum_ext. intros l _. rewrite <- Csum_scal_l. apply Csum_ext. intros; ring.
Qed.

Lemma Csum_delta d i f : i < d -> Csum (seq 0 d) (fun k => (if i =? k then RtoC 1 else RtoC 0) * f k)%C = f i.
Proof.
  intros Hi. rewrite (Csum_single _ i); [|apply seq_NoDup|apply in_seq; lia|].
  - rewrite Nat.eqb_refl. ring.
  - intros k Hk Hne. replace (i =? k) with false by (symmetry; apply Nat.eqb_neq; lia). ring.
Qed.

Lemma unitary_mul d A B : unitary_mat d A -> unitary_mat d B -> unitary_mat d (mat_mul d A B).
Proof.
  intros HA HB i j Hi Hj. unfold mat_mul. split.
  - rewrite (Csum_ext _ _ (fun k => Csum (seq 0 d) (fun a => Csum (seq 0 d) (fun b =>
        (A i a * Cconj (A j b)) * (B a k * Cconj (B b k)))))%C).
    2:{ intros k Hk. rewrite Csum_conj, <- Csum_scal_r. apply Csum_ext. intros a Ha.
        rewrite <- Csum_scal_l. apply Csum_ext. intros b Hb. rewrite Cconj_mult. ring. }
    rewrite Csum_swap.
    rewrite (Csum_ext _ _ (fun a => A i a * Cconj (A j a))%C); [apply HA; auto|].
    intros a Ha. apply in_seq in Ha. rewrite Csum_swap.
    rewrite (Csum_ext _ _ (fun b => (if a =? b then RtoC 1 else RtoC 0) * (A i a * Cconj (A j b)))%C).
    2:{ intros b Hb. apply in_seq in Hb. rewrite Csum_scal_l.
        destruct (HB a b) as [-> _]; [lia|lia|]. ring. }
    rewrite (Csum_delta d a (fun b => A i a * Cconj (A j b))%C) by lia. reflexivity.
  - rewrite (Csum_ext _ _ (fun k => Csum (seq 0 d) (fun a => Csum (seq 0 d) (fun b =>
        (Cconj (B a i) * B b j) * (Cconj (A k a) * A k b))))%C).
    2:{ intros k Hk. rewrite Csum_conj, <- Csum_scal_r. apply Csum_ext. intros a Ha.
        rewrite <- Csum_scal_l. apply Csum_ext. intros b Hb. rewrite Cconj_mult. ring. }
    rewrite Csum_swap.
    rewrite (Csum_ext _ _ (fun a => Cconj (B a i) * B a j)%C); [apply HB; auto|].
    intros a Ha. apply in_seq in Ha. rewrite Csum_swap.
    rewrite (Csum_ext _ _ (fun b => (if a =? b then RtoC 1 else RtoC 0) * (Cconj (B a i) * B b j))%C).
    2:{ intros b Hb. apply in_seq in Hb. rewrite Csum_scal_l.
        destruct (HA a b) as [_ ->]; [lia|lia|]. ring. }
    rewrite (Csum_delta d a (fun b => Cconj (B a i) * B b j)%C) by lia. reflexivity.
Qed.

Lemma norm2_C d v : RtoC (norm2 d v) = Csum (seq 0 d) (fun i => Cconj (v i) * v i)%C.
Proof.
  unfold norm2. rewrite <- Csum_RtoC. apply Csum_ext. intros i _. now rewrite Cconj_mult_norm2.
Qed.

Lemma RtoC_eq_inv a b : RtoC a = RtoC b -> a = b.
Proof. intros E. now injection E. Qed.

Lemma unitary_norm2 d M v : unitary_mat d M -> norm2 d (mat_vec d M v) = norm2 d v.
Proof.
  intros HM. apply RtoC_eq_inv. rewrite !norm2_C. unfold mat_vec.
  rewrite (Csum_ext _ _ (fun k => Csum (seq 0 d) (fun a => Csum (seq 0 d) (fun b =>
        (Cconj (v a) * v b) * (Cconj (M k a) * M k b))))%C).
  2:{ intros k Hk. rewrite Csum_conj, <- Csum_scal_r. apply Csum_ext. intros a Ha.
      rewrite <- Csum_scal_l. apply Csum_ext. intros b Hb. rewrite Cconj_mult. ring. }
  rewrite Csum_swap. apply Csum_ext. intros a Ha. apply in_seq in Ha. rewrite Csum_swap.
  rewrite (Csum_ext _ _ (fun b => (if a =? b then RtoC 1 else RtoC 0) * (Cconj (v a) * v b))%C).
  2:{ intros b Hb. apply in_seq in Hb. rewrite Csum_scal_l.
      destruct (HM a b) as [_ ->]; [lia|lia|]. ring. }
  rewrite (Csum_delta d a (fun b => Cconj (v a) * v b)%C) by lia. reflexivity.
Qed.

(** ** Circuit matrices *)
Lemma keep_all_length D keys A tl :
  length (snd (single_node_matrix D keys A tl SelAll)) = size_of_basis D.
Proof. unfold single_node_matrix. cbn [snd keep_indices]. apply seq_length. Qed.

Lemma fresh_keys_all D : 1 <= dL D -> fresh_keys D = all_values D.
Proof. intros. unfold fresh_keys. now apply fresh_ov_keys. Qed.

(** The product of the complete matrices of the nodes, later nodes on the left. *)
Fixpoint product (D : dims) (acc : mat) (nds : list onode) : mat :=
  match nds with
  | [] => acc
  | nd :: r => product D (mat_mul (size_of_basis D) (full_matrix D (on_matrix nd) (on_tl nd)) acc) r
  end.

Lemma circuit_matrix_product D gates :
  1 <= dL D ->
  circuit_matrix D gates =
  match place D gates with
  | Some (nd :: r) => Some (product D (full_matrix D (on_matrix nd) (on_tl nd)) r)
  | _ => None
  end.
Proof.
  intros HL. unfold circuit_matrix. destruct (place D gates) as [[|nd r]|]; auto.
  unfold fock_state_matrix. cbn [option_map]. f_equal. rewrite fresh_keys_all by auto.
  set (f := fun (acc : mat * list nat) (nd' : onode) => _).
  assert (G : forall r acc, fst (fold_left f r acc) = product D (fst acc) r).
  { clear. induction r as [|nd r IH]; intros acc; [reflexivity|]. cbn [fold_left product].
    rewrite IH. unfold f at 1. cbn [fst]. now rewrite keep_all_length. }
  rewrite G. reflexivity.
Qed.

Lemma circuit_matrix_one D A chs tl :
  1 <= dL D -> tensor_list_of (dN D) chs = Some tl -> circuit_matrix D [(A, chs)] = Some (full_matrix D A tl).
Proof. intros HL E. rewrite circuit_matrix_product by auto. cbn [place]. now rewrite E. Qed.

Lemma circuit_matrix_two D A B chs tl :
  1 <= dL D -> tensor_list_of (dN D) chs = Some tl ->
  circuit_matrix D [(A, chs); (B, chs)]
  = Some (mat_mul (size_of_basis D) (full_matrix D B tl) (full_matrix D A tl)).
Proof. intros HL E. rewrite circuit_matrix_product by auto. cbn [place]. now rewrite E. Qed.

Lemma place_perm D gates nds :
  2 <= dN D -> place D gates = Some nds ->
  Forall (fun nd => Permutation (on_tl nd) (seq 0 (dN D))) nds /\
  map on_matrix nds = map fst gates.
Proof.
  intros HN. revert nds; induction gates as [|[A chs] r IH]; intros nds E; cbn [place] in E.
  - injection E as <-. split; [constructor|reflexivity].
  - destruct (tensor_list_of (dN D) chs) as [tl|] eqn:Et; [|discriminate].
    destruct (place D r) as [nds'|]; [|discriminate]. injection E as <-.
    destruct (IH nds' eq_refl) as [H1 H2]. split.
    + constructor; auto. cbn [on_tl]. eapply tensor_list_perm; eauto.
    + cbn [map on_matrix fst]. now f_equal.
Qed.

Lemma product_unitary D nds acc :
  1 <= dL D -> 2 <= dN D -> Forall (fun nd => Permutation (on_tl nd) (seq 0 (dN D))) nds ->
  Forall (fun nd => unitary2 (on_matrix nd)) nds ->
  unitary_mat (size_of_basis D) acc -> unitary_mat (size_of_basis D) (product D acc nds).
Proof.
  intros HL HN. revert acc; induction nds as [|nd r IH]; intros acc HP HU Hacc; [auto|].
  inversion HP; subst. inversion HU; subst. cbn [product]. apply IH; auto.
  apply unitary_mul; auto. now apply full_matrix_unitary.
Qed.

Lemma circuit_unitary D gates M :
  1 <= dL D -> 2 <= dN D -> Forall (fun g => unitary2 (fst g)) gates ->
  circuit_matrix D gates = Some M -> unitary_mat (size_of_basis D) M.
Proof.
  intros HL HN HU E. rewrite circuit_matrix_product in E by auto.
  destruct (place D gates) as [[|nd r]|] eqn:Ep; try discriminate. injection E as <-.
  destruct (place_perm D gates _ HN Ep) as [HP HM].
  assert (HU' : Forall (fun nd => unitary2 (on_matrix nd)) (nd :: r)).
  { apply Forall_forall. intros x Hx. apply (in_map on_matrix) in Hx. rewrite HM in Hx.
    apply in_map_iff in Hx. destruct Hx as (g & Eg & Hg). rewrite <- Eg.
    rewrite Forall_forall in HU. now apply HU. }
  inversion HP; subst. inversion HU'; subst. apply product_unitary; auto. now apply full_matrix_unitary.
Qed.

Lemma circuit_conserves D gates M us vs :
  1 <= dL D -> 2 <= dN D -> circuit_matrix D gates = Some M -> valid D us -> valid D vs ->
  photons us <> photons vs -> M (index_of_values D us) (index_of_values D vs) = RtoC 0.
Proof.
  intros HL HN E. rewrite circuit_matrix_product in E by auto.
  destruct (place D gates) as [[|nd r]|] eqn:Ep; try discriminate. injection E as <-.
  destruct (place_perm D gates _ HN Ep) as [HP _].
  inversion HP as [|? ? HP0 HPr]; subst. clear HP Ep.
  assert (G : forall nds acc, Forall (fun nd => Permutation (on_tl nd) (seq 0 (dN D))) nds ->
     (forall us vs, valid D us -> valid D vs -> photons us <> photons vs -> acc (index_of_values D us) (index_of_values D vs) = RtoC 0) ->
     forall us vs, valid D us -> valid D vs -> photons us <> photons vs -> product D acc nds (index_of_values D us) (index_of_values D vs) = RtoC 0).
  { clear - HL HN. induction nds as [|nd r IH]; intros acc HP Hacc us vs Hu Hv Hne; [now apply Hacc|].
    inversion HP; subst. cbn [product]. apply IH; auto. clear us vs Hu Hv Hne.
    intros us vs Hu Hv Hne. unfold mat_mul. apply Csum_zero. intros k Hk. apply in_seq in Hk.
    rewrite <- (index_values_roundtrip D k) by lia.
    pose proof (values_from_index_valid D k HL) as Vk. set (ks := values_from_index D k) in *.
    destruct (Nat.eq_dec (photons us) (photons ks)) as [E|E].
    - rewrite (Hacc ks vs) by (auto; lia). ring.
    - rewrite full_matrix_conserves by auto. ring. }
  apply G; auto. intros. now apply full_matrix_conserves.
Qed.
