(** Product states satisfy the Bell inequality. *)
From Coq Require Import Reals List Arith Lia Lra Bool Permutation.
From Coquelicot Require Import Complex.
From Verif Require Import Prelude NamesModel NamesSpec NamesProofs FockModel FockSpec FockProofs GateProofs
  OpticalModel OpticalProofs StateModel StateSpec CollectionModel EvalModel MeasureSpec MeasureProofs
  InterferenceSpec ArrangementProofs PermanentProofs ExponentialProofs CircuitSpec CircuitProofs EnsembleProofs PropCircuit ProtocolSpec ProtocolProofs PropProtocol TsirelsonSpec TsirelsonProofs.
From Verif Require SpreadProofs PropProducts ApplyProofs.
Import ListNotations.

Section Product.
Variables (D : dims) (S : nat -> bool).
Local Notation on := (on D S).
Local Notation off := (off D S).
Local Notation mix := (mix D S).
Local Notation mix_nth := (mix_nth D S).
Local Notation mix_valid := (mix_valid D S).
Local Notation mix_mix := (mix_mix D S).
Lemma product_sum p q : on p -> off q -> (RtoC (INR (length (basis D))) * Csum (basis D) (fun k => p k * q k) = Csum (basis D) p * Csum (basis D) q)%C.
Proof.
  intros Hp Hq. rewrite Csum_prod. transitivity (Csum (list_prod (basis D) (basis D)) (fun x => p (fst x) * q (fst x))%C).
  - rewrite PropProducts.Csum_prod. rewrite <- Csum_scal_l. apply Csum_ext. intros f _. cbn [fst]. rewrite SpreadProofs.Csum_same. reflexivity.
  - etransitivity; [|apply (PropProducts.Csum_prod (basis D) (basis D) (fun x => p (fst x) * q (snd x))%C)].
    rewrite (Csum_perm (list_prod (basis D) (basis D)) (map (fun x => (mix (fst x) (snd x), mix (snd x) (fst x))) (list_prod (basis D) (basis D)))).
    + rewrite Csum_map. apply Csum_ext. intros [f g] Hin. apply in_prod_iff in Hin. destruct Hin as [Hf Hg]. apply basis_in in Hf. apply basis_in in Hg. cbn [fst snd]. f_equal.
      * apply Hp; [now apply mix_valid|exact Hf|]. intros c Hc Hs. rewrite mix_nth by exact Hc. now rewrite Hs.
      * apply Hq; [now apply mix_valid|exact Hg|]. intros c Hc Hs. rewrite mix_nth by exact Hc. now rewrite Hs.
    + assert (ND : NoDup (list_prod (basis D) (basis D))) by (apply list_prod_nodup; apply basis_nodup).
      apply NoDup_Permutation; [exact ND| |].
      * apply map_nodup; [|exact ND]. intros [f g] [f' g'] H1 H2 E. apply in_prod_iff in H1. apply in_prod_iff in H2. cbn [fst snd] in E. injection E as E1 E2.
        destruct H1 as [F1 G1]. destruct H2 as [F2 G2]. apply basis_in in F1. apply basis_in in G1. apply basis_in in F2. apply basis_in in G2. f_equal.
        -- rewrite <- (mix_mix f g g), <- (mix_mix f' g' g') by assumption. now rewrite E1, E2.
        -- rewrite <- (mix_mix g f f), <- (mix_mix g' f' f') by assumption. now rewrite E1, E2.
      * intros [f g]. rewrite in_map_iff, in_prod_iff. split.
        -- intros [Hf Hg]. apply basis_in in Hf. apply basis_in in Hg. exists (mix f g, mix g f). cbn [fst snd]. rewrite !mix_mix by assumption. split; [reflexivity|]. apply in_prod_iff. split; apply basis_in; now apply mix_valid.
        -- intros ([f' g'] & E & Hin). cbn [fst snd] in E. injection E as <- <-. apply in_prod_iff in Hin. destruct Hin as [Hf Hg]. apply basis_in in Hf. apply basis_in in Hg. split; apply basis_in; now apply mix_valid.
Qed.
End Product.

(** ** Hermitian observables *)
Definition herm (o : observable) : Prop := forall l r f g, o l r g f = Cconj (o l r f g).
Lemma leqb_sym (a b : list nat) : leqb a b = leqb b a.
Proof. apply eq_true_iff_eq. rewrite !leqb_spec. split; congruence. Qed.
Lemma herm_before D op o : herm o -> herm (before D op o).
Proof.
  intros H l r f g. destruct op as [A h v|T|F|opt cl]; cbn [before].
  - rewrite Csum_conj. rewrite Csum_swap. apply Csum_ext. intros f' _. rewrite Csum_conj. apply Csum_ext. intros g' _. rewrite (H l r f' g'), !Cconj_mult, Cconj_invol. ring.
  - rewrite Csum_conj. rewrite Csum_swap. apply Csum_ext. intros f' _. rewrite Csum_conj. apply Csum_ext. intros g' _. rewrite (H l r f' g'), !Cconj_mult, Cconj_invol. ring.
  - apply H.
  - rewrite (leqb_sym (readout opt g)). destruct (leqb (readout opt f) (readout opt g)) eqn:E; [|apply C_eq; cbn; ring]. apply leqb_spec in E. rewrite <- E. apply H.
Qed.
Lemma herm_before_all D ops o : herm o -> herm (before_all D ops o).
Proof. intro H. induction ops as [|op ops IH]; [exact H|]. now apply herm_before. Qed.
Lemma herm_diag a : herm (diag a).
Proof. intros l r f g. unfold diag. rewrite (leqb_sym g f). destruct (leqb f g); apply C_eq; cbn; ring. Qed.
Lemma herm_real D o l r u : herm o -> snd (form D (o l r) u u) = 0%R.
Proof.
  intro H. assert (E : Cconj (form D (o l r) u u) = form D (o l r) u u).
  { unfold form. rewrite Csum_conj. rewrite Csum_swap. etransitivity; [|apply Csum_swap]. rewrite Csum_swap. apply Csum_ext. intros f _. rewrite Csum_conj. apply Csum_ext. intros g _. rewrite !Cconj_mult, Cconj_invol, <- (H l r). ring. }
  apply (f_equal snd) in E. cbn [Cconj snd] in E. lra.
Qed.
Lemma form_bound D ncl o l r u : contr D ncl o -> length r = ncl -> (Rabs (fst (form D (o l r) u u)) <= nrm D u)%R.
Proof.
  intros H Hr. apply Rabs_le. split.
  - pose proof (H l r u (fun k => - u k)%C Hr) as X. rewrite nrm_opp in X. assert (E : form D (o l r) u (fun k => - u k)%C = (RtoC (-1) * form D (o l r) u u)%C).
    { unfold form. rewrite <- Csum_scal_l. apply Csum_ext. intros f _. rewrite <- Csum_scal_l. apply Csum_ext. intros g _. apply C_eq; cbn; ring. }
    rewrite E in X. cbn [fst Cmult RtoC snd] in X. lra.
  - pose proof (H l r u u Hr). lra.
Qed.

(** ** Expectation values of product states *)
Section Factor.
Variables (D : dims) (ncl : nat) (S KA KB : nat -> bool).
Variables (o1 o2 : observable).
Hypothesis B1 : blind D ncl (fun c => negb (S c)) KB o1.
Hypothesis B2 : blind D ncl S KA o2.
Lemma factor_sum l l' r r' u v : length r = ncl -> length r' = ncl -> on D S u -> off D S v ->
  (RtoC (INR (length (basis D))) * Csum (basis D) (fun k => Csum (basis D) (fun f => o1 l r f k * (u f * v f)) * Csum (basis D) (fun g => o2 l' r' k g * Cconj (u g * v g)))
   = form D (o1 l r) u u * form D (o2 l' r') v v)%C.
Proof.
  intros Hr Hr' Hu Hv.
  rewrite (Csum_ext _ (fun k => Csum (basis D) (fun f => o1 l r f k * (u f * v f)) * Csum (basis D) (fun g => o2 l' r' k g * Cconj (u g * v g)))%C
    (fun k => (Csum (basis D) (fun f => o1 l r f k * u f) * Cconj (u k)) * (Csum (basis D) (fun g => o2 l' r' k g * Cconj (v g)) * v k))%C).
  - rewrite (product_sum D S).
    + f_equal; unfold form.
      * rewrite Csum_swap. apply Csum_ext. intros k _. rewrite <- Csum_scal_r. apply Csum_ext. intros; ring.
      * apply Csum_ext. intros k _. rewrite <- Csum_scal_r. apply Csum_ext. intros; ring.
    + intros f g Vf Vg Hfg. f_equal; [|f_equal; now apply Hu]. revert f g Vf Vg Hfg.
      change (on D S (fun k => Csum (basis D) (fun f => (fun f k => o1 l r f k * u f)%C f k))). destruct B1 as [Z E]. apply fibre_sum.
      * intros f f' k k' Vf Vf' Vk Vk' A A' Hf Hk. f_equal; [|now apply Hu]. apply E; try assumption; [apply same_outside_refl| |]; intros c Hc Hs; [apply Hf|apply Hk]; try assumption; now destruct (S c).
      * intros f k Vf Vk A. rewrite Z by assumption. ring.
    + intros f g Vf Vg Hfg. f_equal; [|now apply Hv].
      assert (G : on D (fun c => negb (S c)) (fun k => Csum (basis D) (fun f => (fun f k => o2 l' r' k f * Cconj (v f))%C f k))).
      { destruct B2 as [Z E]. apply fibre_sum.
        - intros f0 f' k k' Vf0 Vf' Vk Vk' A A' Hf Hk. f_equal; [|f_equal; apply Hv; try assumption; intros c Hc Hs; apply Hf; [exact Hc|now rewrite Hs]].
          apply E; try assumption; try apply same_outside_refl.
          + apply agree_on_spec. intros c Hc Hs. symmetry. apply (proj1 (agree_off_spec D _ f0 k) A c Hc). now rewrite Hs.
          + apply agree_on_spec. intros c Hc Hs. symmetry. apply (proj1 (agree_off_spec D _ f' k') A' c Hc). now rewrite Hs.
          + intros c Hc Hs. apply Hk; [exact Hc|now rewrite Hs].
          + intros c Hc Hs. apply Hf; [exact Hc|now rewrite Hs].
        - intros f0 k V0 Vk A. rewrite Z; try assumption; [ring|]. destruct (agree_on D S k f0) eqn:Ek; [|reflexivity]. rewrite <- A. symmetry. apply agree_off_spec. intros c Hc Hs. symmetry. apply (proj1 (agree_on_spec D S k f0) Ek c Hc). now destruct (S c). }
      apply G; try assumption. intros c Hc Hs. apply Hfg; [exact Hc|]. now destruct (S c).
  - intros k Hk. apply basis_in in Hk.
    replace (Csum (basis D) (fun f => o1 l r f k * (u f * v f)))%C with (Csum (basis D) (fun f => o1 l r f k * u f) * v k)%C.
    + replace (Csum (basis D) (fun g => o2 l' r' k g * Cconj (u g * v g)))%C with (Csum (basis D) (fun g => o2 l' r' k g * Cconj (v g)) * Cconj (u k))%C; [ring|].
      rewrite <- Csum_scal_r. apply Csum_ext. intros g Hg. apply basis_in in Hg. rewrite Cconj_mult. destruct (agree_on D S k g) eqn:E.
      * rewrite (Hu g k) by (try assumption; intros c Hc Hs; symmetry; now apply (proj1 (agree_on_spec D S k g) E)). ring.
      * rewrite (proj1 B2) by assumption. ring.
    + rewrite <- Csum_scal_r. apply Csum_ext. intros f Hf. apply basis_in in Hf. destruct (agree_off D S f k) eqn:E.
      * rewrite (Hv f k) by (try assumption; now apply (proj1 (agree_off_spec D S f k) E)). ring.
      * rewrite (proj1 B1) by assumption. ring.
Qed.
End Factor.
Lemma product_nrm D S u v : on D S u -> off D S v -> (INR (length (basis D)) * nrm D (fun f => u f * v f)%C = nrm D u * nrm D v)%R.
Proof.
  intros Hu Hv. apply RtoC_inj. rewrite !RtoC_mult. unfold nrm. rewrite <- !Csum_RtoC.
  rewrite (Csum_ext _ (fun f => RtoC (Cnorm2 (u f * v f)%C)) (fun f => RtoC (Cnorm2 (u f)) * RtoC (Cnorm2 (v f)))%C) by (intros; now rewrite Cnorm2_mult, RtoC_mult).
  apply (product_sum D S).
  - intros f g Vf Vg H. now rewrite (Hu f g Vf Vg H).
  - intros f g Vf Vg H. now rewrite (Hv f g Vf Vg H).
Qed.
Lemma abs_between a x : (Rabs a <= x -> - x <= a <= x)%R.
Proof. unfold Rabs. destruct (Rcase_abs a); lra. Qed.
Lemma chsh_real a0 a1 b0 b1 x y : (Rabs a0 <= x -> Rabs a1 <= x -> Rabs b0 <= y -> Rabs b1 <= y -> Rabs (a0 * b0 + a0 * b1 + a1 * b0 - a1 * b1) <= 2 * (x * y))%R.
Proof.
  intros H1 H2 H3 H4. apply abs_between in H1, H2, H3, H4.
  assert (P : forall a b, (- x <= a <= x -> - y <= b <= y -> - (x * y) <= a * b <= x * y)%R) by (intros; split; nra).
  destruct H1 as [H1 H1'], H2 as [H2 H2'], H3 as [H3 H3'], H4 as [H4 H4'].
  apply Rabs_le. assert (G : (- (2 * y) <= b0 + b1 <= 2 * y)%R) by lra.
  assert (Q : forall a b c d, (- x <= a <= x -> - x <= b <= x -> - y <= c <= y -> - y <= d <= y -> a * c + a * d + b * c - b * d <= 2 * (x * y))%R).
  { intros a b c d Ha Hb Hc Hd. destruct (Rle_dec 0 (c + d)); destruct (Rle_dec 0 (c - d)).
    - pose proof (Rmult_le_compat_r (c + d) a x ltac:(lra) ltac:(lra)). pose proof (Rmult_le_compat_r (c - d) b x ltac:(lra) ltac:(lra)). nra.
    - pose proof (Rmult_le_compat_r (c + d) a x ltac:(lra) ltac:(lra)). pose proof (Rmult_le_compat_r (d - c) (- b) x ltac:(lra) ltac:(lra)). nra.
    - pose proof (Rmult_le_compat_r (- (c + d)) (- a) x ltac:(lra) ltac:(lra)). pose proof (Rmult_le_compat_r (c - d) b x ltac:(lra) ltac:(lra)). nra.
    - pose proof (Rmult_le_compat_r (- (c + d)) (- a) x ltac:(lra) ltac:(lra)). pose proof (Rmult_le_compat_r (d - c) (- b) x ltac:(lra) ltac:(lra)). nra. }
  split; [|apply Q; lra]. pose proof (Q (- a0)%R (- a1)%R b0 b1 ltac:(lra) ltac:(lra) ltac:(lra) ltac:(lra)). lra.
Qed.

Lemma basis_length D : 1 <= dL D -> (0 < INR (length (basis D)))%R.
Proof.
  intro HL. apply lt_0_INR. assert (H : In (repeat 0 (dN D)) (basis D)) by (apply basis_in; split; [apply repeat_length|]; apply Forall_forall; intros x Hx; apply repeat_spec in Hx; lia).
  destruct (basis D); [destruct H|cbn; lia].
Qed.
Definition product_wave D S (w : values -> C) : Prop := exists u v, on D S u /\ off D S v /\ forall f, valid D f -> w f = (u f * v f)%C.
Lemma one_product D ncl S KA KB o0 o1 p0 p1 b00 b01 b10 b11 : 1 <= dL D ->
  blind D ncl (fun c => negb (S c)) KB o0 -> blind D ncl (fun c => negb (S c)) KB o1 -> blind D ncl S KA p0 -> blind D ncl S KA p1 ->
  unlabelled o0 -> unlabelled o1 -> unlabelled p0 -> unlabelled p1 -> contr D ncl o0 -> contr D ncl o1 -> contr D ncl p0 -> contr D ncl p1 ->
  herm o0 -> herm o1 -> herm p0 -> herm p1 ->
  length (b_reg b00) = ncl -> length (b_reg b01) = ncl -> length (b_reg b10) = ncl ->
  alike D KB b00 b01 -> alike D KB b10 b11 -> alike D KA b00 b10 -> alike D KA b01 b11 -> product_wave D S (b_wave b00) ->
  (Rabs (fst (expect1 D (comp D o0 p0) b00) + fst (expect1 D (comp D o0 p1) b01) + fst (expect1 D (comp D o1 p0) b10) - fst (expect1 D (comp D o1 p1) b11))
   <= 2 * nrm D (b_wave b00))%R.
Proof.
  intros HL Bo0 Bo1 Bp0 Bp1 Uo0 Uo1 Up0 Up1 Co0 Co1 Cp0 Cp1 Ho0 Ho1 Hp0 Hp1 R00 R01 R10 A1 A2 A3 A4 (u & v & Hu & Hv & Hw).
  rewrite !expect_comp. set (x0 := xvec D o0 b00). set (x1 := xvec D o1 b10). set (y0 := yvec D p0 b00). set (y1 := yvec D p1 b01).
  rewrite (Csum_ext (basis D) (fun k => xvec D o0 b01 k * y1 k)%C (fun k => x0 k * y1 k)%C).
  2:{ intros k Hk. apply basis_in in Hk. unfold x0. now rewrite (xvec_alike D ncl (fun c => negb (S c)) KB o0 b00 b01 k). }
  rewrite (Csum_ext (basis D) (fun k => x1 k * yvec D p0 b10 k)%C (fun k => x1 k * y0 k)%C).
  2:{ intros k Hk. apply basis_in in Hk. unfold y0. now rewrite (yvec_alike D ncl S KA p0 b00 b10 k). }
  rewrite (Csum_ext (basis D) (fun k => xvec D o1 b11 k * yvec D p1 b11 k)%C (fun k => x1 k * y1 k)%C).
  2:{ intros k Hk. apply basis_in in Hk. unfold x1, y1. now rewrite (xvec_alike D ncl (fun c => negb (S c)) KB o1 b10 b11 k), (yvec_alike D ncl S KA p1 b01 b11 k). }
  assert (EX : forall o b, (forall f, valid D f -> b_wave b f = (u f * v f)%C) -> forall k, xvec D o b k = Csum (basis D) (fun f => o (b_label b) (b_reg b) f k * (u f * v f))%C).
  { intros o b H k. apply Csum_ext. intros f Hf. apply basis_in in Hf. now rewrite H. }
  assert (EY : forall o b, (forall f, valid D f -> b_wave b f = (u f * v f)%C) -> forall k, yvec D o b k = Csum (basis D) (fun g => o (b_label b) (b_reg b) k g * Cconj (u g * v g))%C).
  { intros o b H k. apply Csum_ext. intros f Hf. apply basis_in in Hf. now rewrite H. }
  assert (W01 : forall f, valid D f -> b_wave b01 f = (u f * v f)%C) by (intros f Vf; rewrite <- (proj2 A1 f Vf); now apply Hw).
  assert (W10 : forall f, valid D f -> b_wave b10 f = (u f * v f)%C) by (intros f Vf; rewrite <- (proj2 A3 f Vf); now apply Hw).
  set (N := INR (length (basis D))). pose proof (basis_length D HL) as HN. fold N in HN.
  assert (Fac : forall o p b b', blind D ncl (fun c => negb (S c)) KB o -> blind D ncl S KA p -> herm o -> herm p -> length (b_reg b) = ncl -> length (b_reg b') = ncl ->
    (forall f, valid D f -> b_wave b f = (u f * v f)%C) -> (forall f, valid D f -> b_wave b' f = (u f * v f)%C) ->
    (N * fst (Csum (basis D) (fun k => xvec D o b k * yvec D p b' k)%C) = fst (form D (o (b_label b) (b_reg b)) u u) * fst (form D (p (b_label b') (b_reg b')) v v))%R).
  { intros o p b b' Bo Bp Ho Hp Rb Rb' Wb Wb'. pose proof (factor_sum D ncl S KA KB o p Bo Bp (b_label b) (b_label b') (b_reg b) (b_reg b') u v Rb Rb' Hu Hv) as H.
    rewrite (Csum_ext _ _ (fun k => xvec D o b k * yvec D p b' k)%C) in H by (intros k _; now rewrite (EX o b Wb), (EY p b' Wb')).
    apply (f_equal fst) in H. cbn [fst Cmult RtoC snd] in H. rewrite (herm_real D o), (herm_real D p) in H by assumption. fold N in H. lra. }
  apply (Rmult_le_reg_l N); [exact HN|]. rewrite <- (Rabs_pos_eq N) at 1 by lra. rewrite <- Rabs_mult.
  unfold x0, x1, y0, y1.
  replace (N * (fst (Csum (basis D) (fun k => xvec D o0 b00 k * yvec D p0 b00 k)%C) + fst (Csum (basis D) (fun k => xvec D o0 b00 k * yvec D p1 b01 k)%C) + fst (Csum (basis D) (fun k => xvec D o1 b10 k * yvec D p0 b00 k)%C) - fst (Csum (basis D) (fun k => xvec D o1 b10 k * yvec D p1 b01 k)%C)))%R
    with (N * fst (Csum (basis D) (fun k => xvec D o0 b00 k * yvec D p0 b00 k)%C) + N * fst (Csum (basis D) (fun k => xvec D o0 b00 k * yvec D p1 b01 k)%C) + N * fst (Csum (basis D) (fun k => xvec D o1 b10 k * yvec D p0 b00 k)%C) - N * fst (Csum (basis D) (fun k => xvec D o1 b10 k * yvec D p1 b01 k)%C))%R by ring.
  rewrite !Fac by assumption. replace (N * (2 * nrm D (b_wave b00)))%R with (2 * (nrm D u * nrm D v))%R.
  - apply chsh_real; now apply (form_bound D ncl).
  - rewrite <- (product_nrm D S u v Hu Hv). fold N. rewrite (nrm_ext D (b_wave b00) (fun f => u f * v f)%C Hw). ring.
Qed.
Lemma four_lists D KA KB (e00 e01 e10 e11 : branch -> R) ncl k (P : branch -> Prop) :
  (forall b00 b01 b10 b11, length (b_reg b00) = ncl -> length (b_reg b01) = ncl -> length (b_reg b10) = ncl ->
    alike D KB b00 b01 -> alike D KB b10 b11 -> alike D KA b00 b10 -> alike D KA b01 b11 -> P b00 -> (Rabs (e00 b00 + e01 b01 + e10 b10 - e11 b11) <= k * nrm D (b_wave b00))%R) ->
  forall E00 E01 E10 E11, registers ncl E00 -> registers ncl E01 -> registers ncl E10 -> Forall P E00 ->
  Forall2 (alike D KB) E00 E01 -> Forall2 (alike D KB) E10 E11 -> Forall2 (alike D KA) E00 E10 -> Forall2 (alike D KA) E01 E11 ->
  (Rabs (Rsum E00 e00 + Rsum E01 e01 + Rsum E10 e10 - Rsum E11 e11) <= k * Rsum E00 (fun b => nrm D (b_wave b)))%R.
Proof.
  intro H. induction E00 as [|b00 E00 IH]; intros E01 E10 E11 R1 R2 R3 HP A1 A2 A3 A4.
  - inversion A1; subst. inversion A3; subst. inversion A2; subst. cbn. replace (0 + 0 + 0 - 0)%R with 0%R by ring. rewrite Rabs_R0. lra.
  - inversion A1 as [|? b01 ? E01' B1 C1]; subst. inversion A3 as [|? b10 ? E10' B3 C3]; subst. inversion A2 as [|? b11 ? E11' B2 C2]; subst. inversion A4 as [|? ? ? ? B4 C4]; subst. inversion HP as [|? ? P1 P2]; subst.
    assert (H1 := H b00 b01 b10 b11 (R1 b00 (or_introl eq_refl)) (R2 b01 (or_introl eq_refl)) (R3 b10 (or_introl eq_refl)) B1 B2 B3 B4 P1).
    assert (H2 := IH E01' E10' E11' (fun b H => R1 b (or_intror H)) (fun b H => R2 b (or_intror H)) (fun b H => R3 b (or_intror H)) P2 C1 C2 C3 C4).
    rewrite !Rsum_cons.
    match goal with |- (Rabs ?z <= _)%R => match type of H1 with (Rabs ?x <= _)%R => match type of H2 with (Rabs ?y <= _)%R => replace z with (x + y)%R by ring; eapply Rle_trans; [apply Rabs_triang|]; lra end end end.
Qed.
