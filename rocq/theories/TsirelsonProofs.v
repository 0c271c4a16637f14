From Coq Require Import Reals List Arith Lia Lra Bool Permutation.
From Coquelicot Require Import Complex.
From Verif Require Import Prelude NamesModel NamesSpec NamesProofs FockModel FockSpec FockProofs GateProofs
  OpticalModel OpticalProofs StateModel StateSpec CollectionModel EvalModel MeasureSpec MeasureProofs
  InterferenceSpec ArrangementProofs PermanentProofs ExponentialProofs CircuitSpec CircuitProofs EnsembleProofs PropCircuit ProtocolSpec ProtocolProofs PropProtocol TsirelsonSpec.
Import ListNotations.

(** ** Kernels that leave the channels [S] alone commute with what happens there *)
Section Commute.
Variables (D : dims) (S : nat -> bool).
Definition leaves (q : values -> values -> C) : Prop :=
  (forall f g, valid D f -> valid D g -> agree_on D S f g = false -> q f g = RtoC 0) /\
  (forall f f' g g', valid D f -> valid D f' -> valid D g -> valid D g' -> agree_on D S f g = true -> agree_on D S f' g' = true ->
     same_rest D S f f' -> same_rest D S g g' -> q f g = q f' g').
Lemma agree_on_sym f g : agree_on D S f g = agree_on D S g f.
Proof.
  destruct (agree_on D S f g) eqn:E1, (agree_on D S g f) eqn:E2; try reflexivity.
  - rewrite <- E2. symmetry. apply agree_on_spec. intros c Hc HS. symmetry. now apply (proj1 (agree_on_spec D S f g) E1).
  - rewrite <- E1. apply agree_on_spec. intros c Hc HS. symmetry. now apply (proj1 (agree_on_spec D S g f) E2).
Qed.
Lemma leaves_tr q : leaves q -> leaves (fun a b => q b a).
Proof.
  intros [H1 H2]. split.
  - intros f g Vf Vg E. apply H1; try assumption. now rewrite agree_on_sym.
  - intros f f' g g' Vf Vf' Vg Vg' E E' Hf Hg. apply H2; try assumption; now rewrite agree_on_sym.
Qed.
Lemma leaves_conj q : leaves q -> leaves (fun a b => Cconj (q a b)).
Proof.
  intros [H1 H2]. split.
  - intros f g Vf Vg E. rewrite (H1 f g Vf Vg E). apply C_eq; cbn; ring.
  - intros f f' g g' Vf Vf' Vg Vg' E E' Hf Hg. f_equal. now apply H2.
Qed.
Lemma pair_amp_tr A h v f g : pair_amp D (mat2_tr A) h v f g = pair_amp D A h v g f.
Proof.
  unfold pair_amp. rewrite gate_amp_tr. replace (forallb (fun c => (c =? h) || (c =? v) || (nth c f 0 =? nth c g 0)) (seq 0 (dN D))) with (forallb (fun c => (c =? h) || (c =? v) || (nth c g 0 =? nth c f 0)) (seq 0 (dN D))); [reflexivity|].
  induction (seq 0 (dN D)) as [|c l IH]; [reflexivity|]. cbn [forallb]. rewrite IH. now rewrite (Nat.eqb_sym (nth c f 0)).
Qed.
Lemma put2_self h v x y f g : h <> v -> valid D f -> h < dN D -> v < dN D ->
  agree_on D S g (put2 h v x y f) = true -> S h = true -> S v = true -> x = nth h g 0 /\ y = nth v g 0.
Proof.
  intros Hn [Hl _] Hh Hv E Sh Sv. pose proof (proj1 (agree_on_spec D S _ _) E) as H. pose proof (H h Hh Sh) as H1. pose proof (H v Hv Sv) as H2. rewrite !put2_nth in * by (rewrite Hl; assumption).
  destruct (Nat.eqb_spec h v); [contradiction|]. rewrite Nat.eqb_refl in *. now split.
Qed.
Lemma commute q T k' g : leaves q -> acts_in D S T -> valid D k' -> valid D g ->
  Csum (basis D) (fun g' => q k' g' * T g g')%C = Csum (basis D) (fun k => T k k' * q k g)%C.
Proof.
  intros [Q1 Q2] HT Vk Vg. assert (V1 : valid D (mix D S k' g)) by now apply mix_valid. assert (V2 : valid D (mix D S g k')) by now apply mix_valid.
  rewrite (Csum_single _ (mix D S k' g)); [|apply basis_nodup|now apply basis_in|].
  2:{ intros g' Hg Hne. apply basis_in in Hg. destruct (agree_on D S k' g') eqn:E; [|rewrite Q1 by assumption; ring]. destruct (agree_off D S g g') eqn:E2; [|rewrite (acts_zero D S T g g' HT Vg Hg E2); ring].
      exfalso. apply Hne. apply (agree_both D S); try assumption; [apply agree_on_spec|apply agree_off_spec]; intros c Hc Hs; rewrite mix_nth, Hs by exact Hc; symmetry; [now apply (proj1 (agree_on_spec D S k' g') E)|now apply (proj1 (agree_off_spec D S g g') E2)]. }
  rewrite (Csum_single _ (mix D S g k')); [|apply basis_nodup|now apply basis_in|].
  2:{ intros k Hk Hne. apply basis_in in Hk. destruct (agree_on D S k g) eqn:E; [|rewrite (Q1 k g) by assumption; ring]. destruct (agree_off D S k k') eqn:E2; [|rewrite (acts_zero D S T k k' HT Hk Vk E2); ring].
      exfalso. apply Hne. apply (agree_both D S); try assumption; [apply agree_on_spec|apply agree_off_spec]; intros c Hc Hs; rewrite mix_nth, Hs by exact Hc; [now apply (proj1 (agree_on_spec D S k g) E)|now apply (proj1 (agree_off_spec D S k k') E2)]. }
  assert (E1 : T g (mix D S k' g) = T (mix D S g k') k').
  { apply (acts_moved D S T k' g k' HT Vk Vg Vk). now apply agree_off_spec. }
  rewrite E1. assert (E2 : q k' (mix D S k' g) = q (mix D S g k') g).
  { apply Q2; try assumption.
    - apply agree_on_spec. intros c Hc Hs. now rewrite mix_nth, Hs by exact Hc.
    - apply mix_on.
    - intros c Hc Hs. now rewrite mix_nth, Hs by exact Hc.
    - intros c Hc Hs. now rewrite mix_nth, Hs by exact Hc. }
  rewrite E2. ring.
Qed.
Lemma commute_conj q T k' g : leaves q -> acts_in D S T -> valid D k' -> valid D g ->
  Csum (basis D) (fun g' => q k' g' * Cconj (T g g'))%C = Csum (basis D) (fun k => Cconj (T k k') * q k g)%C.
Proof.
  intros Hq HT Vk Vg. pose proof (commute _ T k' g (leaves_conj q Hq) HT Vk Vg) as H. apply (f_equal Cconj) in H. rewrite !Csum_conj in H.
  rewrite (Csum_ext _ _ (fun g' => Cconj (Cconj (q k' g') * T g g'))%C) by (intros; rewrite Cconj_mult, Cconj_invol; reflexivity). rewrite H. apply Csum_ext. intros k _. now rewrite Cconj_mult, Cconj_invol.
Qed.
End Commute.

(** ** Two parties *)
Definition comp (D : dims) (o1 o2 : observable) : observable :=
  fun l r f g => Csum (basis D) (fun k => o1 l r f k * o2 l r k g)%C.
Lemma comp_agree D ncl o1 o2 p1 p2 : agree D ncl o1 p1 -> agree D ncl o2 p2 -> agree D ncl (comp D o1 o2) (comp D p1 p2).
Proof. intros H1 H2 l r f g Hr Vf Vg. apply Csum_ext. intros k Hk. apply basis_in in Hk. rewrite H1, H2 by assumption. reflexivity. Qed.

Section Local.
Variables (D : dims) (ncl : nat) (SA KA QA SB KB QB : nat -> bool).
Hypothesis HSep : separate SA KA QA SB KB QB.
Lemma blind_leaves S K o l r : length r = ncl -> blind D ncl S K o -> leaves D S (o l r).
Proof. intros Hr [B1 B2]. split; [intros; now apply B1|]. intros. apply B2; try assumption. apply same_outside_refl. Qed.
Lemma apart_off (T U : nat -> bool) c : apart T U -> U c = true -> T c = false.
Proof. intros H E. destruct (T c) eqn:E1; [|reflexivity]. rewrite (H c E1) in E. discriminate. Qed.
Lemma outside_inside Q r r' : same_outside (fun c => negb (Q c)) r r' -> same_inside Q r r'.
Proof. intros [_ Hs] c Hc. apply Hs. now rewrite Hc. Qed.
Lemma inside_outside Q r r' : length r = length r' -> same_inside Q r r' -> same_outside (fun c => negb (Q c)) r r'.
Proof. intros Hl Hs. split; [exact Hl|]. intros c Hc. apply Hs. now destruct (Q c). Qed.
Lemma outside_apart K Q r r' : apart K Q -> same_outside K r r' -> same_outside (fun c => negb (Q c)) r r'.
Proof. intros Ha [Hl Hs]. split; [exact Hl|]. intros c Hc. apply Hs. apply (apart_off K Q); [exact Ha|]. now destruct (Q c). Qed.
Lemma apart_sym T U : apart T U -> apart U T.
Proof. intros H c Hc. now apply (apart_off T U). Qed.
Lemma local_by_bob S T K Q op : apart S T -> within K Q -> local_to D ncl T K Q op -> by_bob D ncl S (fun c => negb (Q c)) op.
Proof.
  intros H1 H2. destruct op as [A h v|W|F|opt cl]; cbn [local_to by_bob].
  - intros (Th & Tv & Hn & Hh & Hv & HA). repeat split; try assumption; try (now apply (apart_off S T)). intros r r' Hr Hs. apply HA; [exact Hr|destruct Hs; congruence|]. now apply outside_inside.
  - apply acts_wider. intros c Hc Ht. now rewrite (apart_off S T c H1 Ht).
  - intros [HF1 HF2]. split; [intros r Hr; destruct (HF1 r Hr) as [E _]; congruence|]. intros r r' Hr Hs. assert (Hr' : length r' = ncl) by (destruct Hs; congruence).
    destruct (HF1 r Hr) as [E1 G1]. destruct (HF1 r' Hr') as [E2 G2]. split; [congruence|]. intros c Hc. destruct (K c) eqn:E.
    + apply HF2; try assumption. now apply outside_inside.
    + rewrite G1, G2 by assumption. now apply Hs.
  - intros [Ho Hc]. split; intros c Hin; [apply (apart_off S T); auto|]. now rewrite (H2 c (Hc c Hin)).
Qed.
Lemma alice_kernel T o1 o2 l r f g : acts_in D SA T -> length r = ncl -> blind D ncl SA (fun c => negb (QB c)) o2 -> valid D f -> valid D g ->
  Csum (basis D) (fun f' => Csum (basis D) (fun g' => Csum (basis D) (fun k => o1 l r f' k * o2 l r k g') * (T f f' * Cconj (T g g'))))%C
  = Csum (basis D) (fun k => Csum (basis D) (fun f' => Csum (basis D) (fun g' => o1 l r f' g' * (T f f' * Cconj (T k g')))) * o2 l r k g)%C.
Proof.
  intros HT Hr Hb Vf Vg. pose proof (blind_leaves SA _ o2 l r Hr Hb) as Hlv.
    etransitivity; [|etransitivity].
    + apply (Csum_ext _ _ (fun f' => Csum (basis D) (fun k => (o1 l r f' k * T f f') * Csum (basis D) (fun k' => Cconj (T k' k) * o2 l r k' g)))%C).
      intros f' Hf. etransitivity; [apply (Csum_ext _ _ (fun g' => Csum (basis D) (fun k => o1 l r f' k * o2 l r k g' * (T f f' * Cconj (T g g')))%C)); intros g' Hg; now rewrite <- Csum_scal_r|].
      rewrite Csum_swap. apply Csum_ext. intros k Hk. apply basis_in in Hk.
      rewrite <- (commute_conj D SA (o2 l r) T k g Hlv HT Hk Vg). rewrite <- Csum_scal_l. apply Csum_ext. intros; ring.
    + apply (Csum_ext _ _ (fun f' => Csum (basis D) (fun k' => Csum (basis D) (fun k => (o1 l r f' k * (T f f' * Cconj (T k' k))) * o2 l r k' g)%C))).
      intros f' Hf. rewrite Csum_swap. apply Csum_ext. intros k Hk. rewrite <- Csum_scal_l. apply Csum_ext. intros; ring.
    + rewrite Csum_swap. apply Csum_ext. intros k' Hk. rewrite <- Csum_scal_r. apply Csum_ext. intros f' Hf. now rewrite <- Csum_scal_r.
Qed.
Lemma before_alice op o1 o2 : local_to D ncl SA KA QA op -> blind D ncl SA (fun c => negb (QB c)) o2 ->
  agree D ncl (before D op (comp D o1 o2)) (comp D (before D op o1) o2).
Proof.
  intros Hl Hb. destruct op as [A h v|W|F|opt cl]; cbn [local_to] in Hl;  intros l r f g Hr Vf Vg; unfold comp; cbn [before].
  - destruct Hl as (Sh & Sv & Hn & Hh & Hv & _). apply alice_kernel; try assumption. now apply pair_acts.
  - now apply alice_kernel.
  - apply Csum_ext. intros k Hk. apply basis_in in Hk. destruct Hl as [HF _]. destruct Hb as [B1 B2]. destruct (agree_on D SA k g) eqn:E.
    + f_equal. apply B2; try assumption; try (intros c Hc; reflexivity); [destruct (HF r Hr); congruence|]. apply (outside_apart KA QB); [apply HSep|now apply HF].
    + rewrite !B1; try assumption; [reflexivity|]. destruct (HF r Hr); congruence.
  - destruct Hl as [Ho Hc]. destruct Hb as [B1 B2].
    etransitivity; [|apply (Csum_ext _ (fun k => if leqb (readout opt f) (readout opt g) then o1 l (noted cl (readout opt f) r) f k * o2 l (noted cl (readout opt f) r) k g else RtoC 0)%C)].
    + destruct (leqb (readout opt f) (readout opt g)); [reflexivity|]. now rewrite Csum_zero by reflexivity.
    + intros k Hk. apply basis_in in Hk. destruct (agree_on D SA k g) eqn:E.
      * assert (Erd : readout opt k = readout opt g) by (apply (readout_agree D); [intros c Hin Hlt; apply (proj1 (agree_on_spec D SA k g) E); [exact Hlt|now apply Ho]|apply Hk|apply Vg]). rewrite Erd.
        destruct (leqb (readout opt f) (readout opt g)); [|ring]. f_equal. apply B2; try assumption; try (intros c Hc'; reflexivity); [now rewrite noted_length|apply (outside_apart KA QB); [apply HSep|now apply noted_outside]].
      * rewrite !B1; try assumption; [|now rewrite noted_length]. destruct (leqb (readout opt f) (readout opt g)), (leqb (readout opt f) (readout opt k)); ring.
Qed.
Lemma bob_kernel T o1 o2 l r f g : acts_in D SB T -> length r = ncl -> blind D ncl SB (fun c => negb (QA c)) o1 -> valid D f -> valid D g ->
  Csum (basis D) (fun f' => Csum (basis D) (fun g' => Csum (basis D) (fun k => o1 l r f' k * o2 l r k g') * (T f f' * Cconj (T g g'))))%C
  = Csum (basis D) (fun k => o1 l r f k * Csum (basis D) (fun f' => Csum (basis D) (fun g' => o2 l r f' g' * (T k f' * Cconj (T g g')))))%C.
Proof.
  intros HT Hr Hb Vf Vg. pose proof (leaves_tr D SB _ (blind_leaves SB _ o1 l r Hr Hb)) as Hlv.
    rewrite Csum_swap. etransitivity; [|etransitivity].
    + apply (Csum_ext _ _ (fun g' => Csum (basis D) (fun k => (o2 l r k g' * Cconj (T g g')) * Csum (basis D) (fun k' => T k' k * o1 l r f k')))%C).
      intros g' Hg. etransitivity; [apply (Csum_ext _ _ (fun f' => Csum (basis D) (fun k => o1 l r f' k * o2 l r k g' * (T f f' * Cconj (T g g')))%C)); intros f' Hf; now rewrite <- Csum_scal_r|].
      rewrite Csum_swap. apply Csum_ext. intros k Hk. apply basis_in in Hk.
      rewrite <- (commute D SB _ T k f Hlv HT Hk Vf). rewrite <- Csum_scal_l. apply Csum_ext. intros; ring.
    + apply (Csum_ext _ _ (fun g' => Csum (basis D) (fun k' => Csum (basis D) (fun k => o1 l r f k' * (o2 l r k g' * (T k' k * Cconj (T g g'))))%C))).
      intros g' Hg. rewrite Csum_swap. apply Csum_ext. intros k Hk. rewrite <- Csum_scal_l. apply Csum_ext. intros; ring.
    + rewrite Csum_swap. apply Csum_ext. intros k' Hk. rewrite Csum_swap. rewrite <- Csum_scal_l. apply Csum_ext. intros f' Hf. now rewrite <- Csum_scal_l.
Qed.
Lemma before_bob op o1 o2 : local_to D ncl SB KB QB op -> blind D ncl SB (fun c => negb (QA c)) o1 ->
  agree D ncl (before D op (comp D o1 o2)) (comp D o1 (before D op o2)).
Proof.
  intros Hl Hb. destruct op as [A h v|W|F|opt cl]; cbn [local_to] in Hl;  intros l r f g Hr Vf Vg; unfold comp; cbn [before].
  - destruct Hl as (Sh & Sv & Hn & Hh & Hv & _). apply bob_kernel; try assumption. now apply pair_acts.
  - now apply bob_kernel.
  - apply Csum_ext. intros k Hk. apply basis_in in Hk. destruct Hl as [HF _]. destruct Hb as [B1 B2]. destruct (agree_on D SB f k) eqn:E.
    + f_equal. apply B2; try assumption; try (intros c Hc; reflexivity); [destruct (HF r Hr); congruence|]. apply (outside_apart KB QA); [apply HSep|now apply HF].
    + rewrite !B1; try assumption; [reflexivity|]. destruct (HF r Hr); congruence.
  - destruct Hl as [Ho Hc]. destruct Hb as [B1 B2].
    etransitivity; [|apply (Csum_ext _ (fun k => if leqb (readout opt f) (readout opt g) then o1 l (noted cl (readout opt f) r) f k * o2 l (noted cl (readout opt f) r) k g else RtoC 0)%C)].
    + destruct (leqb (readout opt f) (readout opt g)); [reflexivity|]. now rewrite Csum_zero by reflexivity.
    + intros k Hk. apply basis_in in Hk. destruct (agree_on D SB f k) eqn:E.
      * assert (Erd : readout opt f = readout opt k) by (apply (readout_agree D); [intros c Hin Hlt; apply (proj1 (agree_on_spec D SB f k) E); [exact Hlt|now apply Ho]|apply Vf|apply Hk]). rewrite Erd.
        destruct (leqb (readout opt k) (readout opt g)); [|ring]. f_equal. apply B2; try assumption; try (intros c Hc'; reflexivity); [now rewrite noted_length|apply (outside_apart KB QA); [apply HSep|now apply noted_outside]].
      * rewrite !B1; try assumption; [|now rewrite noted_length]. destruct (leqb (readout opt f) (readout opt g)), (leqb (readout opt k) (readout opt g)); ring.
Qed.
Lemma shuffle_forall a b c : shuffle a b c -> Forall (isometric D ncl) c -> Forall (isometric D ncl) a /\ Forall (isometric D ncl) b.
Proof. induction 1; intros HF; [auto|inversion HF; subst; destruct IHshuffle; auto..]. Qed.
Lemma before_joint opt cl opt' cl' o l r f g : length cl = length opt -> (forall k, In k cl -> ~ In k cl') ->
  before D (Detect (opt ++ opt') (cl ++ cl')) o l r f g = before D (Detect opt cl) (before D (Detect opt' cl') o) l r f g.
Proof.
  intros La Hd. cbn [before]. rewrite !readout_app, leqb_app by now rewrite !readout_length.
  destruct (leqb (readout opt f) (readout opt g)); [cbn [andb]|reflexivity]. destruct (leqb (readout opt' f) (readout opt' g)); [|reflexivity].
  rewrite noted_noted; [reflexivity|now rewrite readout_length|exact Hd].
Qed.
Lemma alice_blind A o : Forall (local_to D ncl SA KA QA) A -> blind D ncl SB (fun c => negb (QA c)) o -> blind D ncl SB (fun c => negb (QA c)) (before_all D A o).
Proof. intros HF Ho. induction HF as [|op ops H HF IH]; [exact Ho|]. cbn [before_all fold_right]. apply bob_blind; [|exact IH]. apply (local_by_bob SB SA KA QA); [apply apart_sym; apply HSep|apply HSep|exact H]. Qed.
Lemma bobs_blind A o : Forall (local_to D ncl SB KB QB) A -> blind D ncl SA (fun c => negb (QB c)) o -> blind D ncl SA (fun c => negb (QB c)) (before_all D A o).
Proof. intros HF Ho. induction HF as [|op ops H HF IH]; [exact Ho|]. cbn [before_all fold_right]. apply bob_blind; [|exact IH]. apply (local_by_bob SA SB KB QB); [apply HSep|apply HSep|exact H]. Qed.
Lemma parties A B ops oA oB : shuffle A B ops -> Forall (isometric D ncl) ops -> Forall (local_to D ncl SA KA QA) A -> Forall (local_to D ncl SB KB QB) B ->
  blind D ncl SB (fun c => negb (QA c)) oA -> blind D ncl SA (fun c => negb (QB c)) oB ->
  agree D ncl (before_all D ops (comp D oA oB)) (comp D (before_all D A oA) (before_all D B oB)).
Proof.
  intros Hsh HI HA HB BA BB. induction Hsh as [|x A B c Hsh IH|x A B c Hsh IH|opt cl opt' cl' A B c L1 L2 Hd Hsh IH]; cbn [before_all fold_right].
  - intros l r f g _ _ _. reflexivity.
  - inversion HI as [|? ? I1 I2]; subst. inversion HA as [|? ? A1 A2]; subst. specialize (IH I2 A2 HB).
    intros l r f g Hr Vf Vg. etransitivity; [apply (before_agree D ncl x _ _ ltac:(intros r' Hr'; destruct x; cbn [isometric] in I1; auto) IH l r f g Hr Vf Vg)|].
    apply (before_alice x (before_all D A oA) (before_all D B oB) A1); try assumption. now apply bobs_blind.
  - inversion HI as [|? ? I1 I2]; subst. inversion HB as [|? ? B1 B2]; subst. specialize (IH I2 HA B2).
    intros l r f g Hr Vf Vg. etransitivity; [apply (before_agree D ncl x _ _ ltac:(intros r' Hr'; destruct x; cbn [isometric] in I1; auto) IH l r f g Hr Vf Vg)|].
    apply (before_bob x (before_all D A oA) (before_all D B oB) B1); try assumption. now apply alice_blind.
  - inversion HI as [|? ? I1 I2]; subst. inversion HA as [|? ? A1 A2]; subst. inversion HB as [|? ? B1 B2]; subst. specialize (IH I2 A2 B2).
    intros l r f g Hr Vf Vg. etransitivity; [apply before_joint; assumption|].
    pose proof (before_agree D ncl (Detect opt' cl') _ _ ltac:(auto) IH) as G1.
    pose proof (before_bob (Detect opt' cl') (before_all D A oA) (before_all D B oB) B1 ltac:(now apply alice_blind)) as G2.
    assert (G3 : agree D ncl (before D (Detect opt' cl') (before_all D c (comp D oA oB))) (comp D (before_all D A oA) (before D (Detect opt' cl') (before_all D B oB)))).
    { intros l1 r1 f1 g1 H1 H2 H3. etransitivity; [now apply G1|now apply G2]. }
    etransitivity; [apply (before_agree D ncl (Detect opt cl) _ _ ltac:(auto) G3 l r f g Hr Vf Vg)|].
    apply (before_alice (Detect opt cl) (before_all D A oA) (before D (Detect opt' cl') (before_all D B oB)) A1); try assumption.
    apply bob_blind; [|now apply bobs_blind]. apply (local_by_bob SA SB KB QB); [apply HSep|apply HSep|exact B1].
Qed.
End Local.

(** ** Observables with values between -1 and 1 *)
Lemma re_sum {A} (l : list A) f : fst (Csum l f) = Rsum l (fun x => fst (f x)).
Proof. induction l as [|x l IH]; [reflexivity|]. rewrite Csum_cons, Rsum_cons. cbn [fst Cplus]. now rewrite <- IH. Qed.
Section Contraction.
Variables (D : dims) (ncl : nat).
Definition form (o : values -> values -> C) (u v : values -> C) : C := Csum (basis D) (fun f => Csum (basis D) (fun g => o f g * (u f * Cconj (v g)))%C).
Definition nrm (u : values -> C) : R := Rsum (basis D) (fun f => Cnorm2 (u f)).
Definition contr (o : observable) : Prop := forall l r u v, length r = ncl -> (fst (form (o l r) u v) <= (nrm u + nrm v) / 2)%R.
Lemma nrm_ext u v : (forall f, valid D f -> u f = v f) -> nrm u = nrm v.
Proof. intro H. apply Rsum_ext. intros f Hf. apply basis_in in Hf. now rewrite H. Qed.
Lemma form_ext o o' u u' v v' : (forall f g, valid D f -> valid D g -> o f g = o' f g) -> (forall f, valid D f -> u f = u' f) -> (forall f, valid D f -> v f = v' f) -> form o u v = form o' u' v'.
Proof. intros H1 H2 H3. apply Csum_ext. intros f Hf. apply Csum_ext. intros g Hg. apply basis_in in Hf. apply basis_in in Hg. now rewrite H1, H2, H3. Qed.
Lemma nrm_sum u : RtoC (nrm u) = form (fun f g => if leqb f g then RtoC 1 else RtoC 0) u u.
Proof.
  unfold nrm, form. rewrite <- Csum_RtoC. apply Csum_ext. intros f Hf. rewrite (Csum_single _ f); [|apply basis_nodup|exact Hf|].
  - rewrite leqb_refl, <- Cconj_mult_norm2. ring.
  - intros g _ Hn. destruct (leqb f g) eqn:E; [apply leqb_spec in E; congruence|ring].
Qed.
Lemma evolve_form T (o : values -> values -> C) w w' :
  form o (evolve D T w) (evolve D T w') = form (fun f g => Csum (basis D) (fun f' => Csum (basis D) (fun g' => o f' g' * (T f f' * Cconj (T g g')))))%C w w'.
Proof.
  unfold form.
  transitivity (Csum (basis D) (fun f' => Csum (basis D) (fun g' => Csum (basis D) (fun f => Csum (basis D) (fun g => o f' g' * (T f f' * Cconj (T g g')) * (w f * Cconj (w' g)))%C)))).
  - apply Csum_ext. intros f' _. apply Csum_ext. intros g' _. unfold evolve. rewrite Csum_conj, Csum_prod, <- Csum_scal_l. apply Csum_ext. intros f _. rewrite <- Csum_scal_l.
    apply Csum_ext. intros g _. rewrite Cconj_mult. ring.
  - transitivity (Csum (basis D) (fun f' => Csum (basis D) (fun f => Csum (basis D) (fun g' => Csum (basis D) (fun g => o f' g' * (T f f' * Cconj (T g g')) * (w f * Cconj (w' g)))%C)))).
    { apply Csum_ext. intros f' _. apply Csum_swap. }
    rewrite Csum_swap. apply Csum_ext. intros f _.
    transitivity (Csum (basis D) (fun f' => Csum (basis D) (fun g => Csum (basis D) (fun g' => o f' g' * (T f f' * Cconj (T g g')) * (w f * Cconj (w' g)))%C))).
    { apply Csum_ext. intros f' _. apply Csum_swap. }
    rewrite Csum_swap. apply Csum_ext. intros g _. rewrite <- Csum_scal_r. apply Csum_ext. intros f' _. now rewrite <- Csum_scal_r.
Qed.
Lemma evolve_nrm T w : (forall f g, valid D f -> valid D g -> Csum (basis D) (fun k => T f k * Cconj (T g k))%C = if leqb f g then RtoC 1 else RtoC 0) -> nrm (evolve D T w) = nrm w.
Proof.
  intro HI. apply RtoC_inj. rewrite !nrm_sum. etransitivity; [apply evolve_form|]. apply form_ext; try reflexivity. intros f g Vf Vg. rewrite <- (HI f g Vf Vg). apply Csum_ext. intros f' Hf'.
  rewrite (Csum_single _ f'); [rewrite leqb_refl; ring|apply basis_nodup|exact Hf'|]. intros g' _ Hn. destruct (leqb f' g') eqn:E; [apply leqb_spec in E; congruence|ring].
Qed.
Lemma contr_before op o : isometric D ncl op -> contr o -> contr (before D op o).
Proof.
  intros HI Hc l r u v Hr. destruct op as [A h v0|T|F|opt cl]; cbn [before isometric] in *.
  - rewrite <- evolve_form. rewrite <- (evolve_nrm (pair_amp D (A r) h v0) u), <- (evolve_nrm (pair_amp D (A r) h v0) v) by now apply HI. now apply Hc.
  - rewrite <- evolve_form. rewrite <- (evolve_nrm T u), <- (evolve_nrm T v) by now apply HI. now apply Hc.
  - apply (Hc l (F r)). now apply HI.
  - assert (Hin : forall f, In f (basis D) -> In (readout opt f) (all_readings D opt)) by (intros f Hf; apply nodup_In; now apply in_map).
    assert (Hnd : NoDup (all_readings D opt)) by apply NoDup_nodup.
    pose (part := fun (o' : list nat) (w : values -> C) f => if leqb (readout opt f) o' then w f else RtoC 0).
    assert (E : form (fun f g => if leqb (readout opt f) (readout opt g) then o l (noted cl (readout opt f) r) f g else RtoC 0) u v
      = Csum (all_readings D opt) (fun o' => form (o l (noted cl o' r)) (part o' u) (part o' v))).
    { unfold form. symmetry. rewrite Csum_swap. apply Csum_ext. intros f Hf. rewrite Csum_swap. apply Csum_ext. intros g Hg.
      rewrite (Csum_single _ (readout opt f)); [|exact Hnd|now apply Hin|].
      - unfold part. rewrite leqb_refl. destruct (leqb (readout opt f) (readout opt g)) eqn:E1.
        + apply leqb_spec in E1. rewrite <- E1, leqb_refl. reflexivity.
        + assert (E2 : leqb (readout opt g) (readout opt f) = false) by (destruct (leqb (readout opt g) (readout opt f)) eqn:E2; [apply leqb_spec in E2; rewrite E2, leqb_refl in E1; discriminate|reflexivity]). rewrite E2. apply C_eq; cbn; ring.
      - intros o' _ Hn. unfold part. destruct (leqb (readout opt f) o') eqn:E1; [apply leqb_spec in E1; congruence|ring]. }
    rewrite E. rewrite re_sum. 
    assert (N : forall w, nrm w = Rsum (all_readings D opt) (fun o' => nrm (part o' w))).
    { intro w. unfold nrm. rewrite Rsum_swap. apply Rsum_ext. intros f Hf. rewrite (Rsum_single _ (readout opt f)); [unfold part; now rewrite leqb_refl|exact Hnd|now apply Hin|].
      intros o' _ Hn. unfold part. destruct (leqb (readout opt f) o') eqn:E1; [apply leqb_spec in E1; congruence|apply Cnorm2_zero]. }
    rewrite (N u), (N v). rewrite <- Rsum_plus. unfold Rdiv. rewrite (Rmult_comm _ (/2)), <- Rsum_scal_l. apply Rsum_le. intros o' _. 
    pose proof (Hc l (noted cl o' r) (part o' u) (part o' v) ltac:(now rewrite noted_length)). lra.
Qed.
Lemma contr_before_all ops o : Forall (isometric D ncl) ops -> contr o -> contr (before_all D ops o).
Proof. intros HF Ho. induction HF as [|op ops H HF IH]; [exact Ho|]. now apply contr_before. Qed.
Definition diag (a : list R -> R) : observable := fun l r f g => if leqb f g then RtoC (a r) else RtoC 0.
Lemma contr_diag a : (forall r, length r = ncl -> -1 <= a r <= 1)%R -> contr (diag a).
Proof.
  intros Ha l r u v Hr. unfold form, diag, nrm. rewrite re_sum, <- Rsum_plus. unfold Rdiv. rewrite (Rmult_comm _ (/2)), <- Rsum_scal_l. apply Rsum_le. intros f Hf.
  rewrite (Csum_single _ f); [|apply basis_nodup|exact Hf|].
  - rewrite leqb_refl. specialize (Ha r Hr). destruct (u f) as [p q], (v f) as [p' q']. unfold Cnorm2. cbn. 
    assert (H1 : (a r * (p * p' + q * q') <= (p * p + q * q + (p' * p' + q' * q')) / 2)%R).
    { pose proof (Rle_0_sqr (p - p')) as X1. pose proof (Rle_0_sqr (q - q')) as X2. pose proof (Rle_0_sqr (p + p')) as X3. pose proof (Rle_0_sqr (q + q')) as X4. unfold Rsqr in *.
      destruct (Rle_dec 0 (p * p' + q * q')); nra. }
    lra.
  - intros g _ Hn. destruct (leqb f g) eqn:E; [apply leqb_spec in E; congruence|ring].
Qed.
(** The vectors a contraction leads to are not longer. *)
Lemma contr_right o l r w : contr o -> length r = ncl -> (nrm (fun k => Csum (basis D) (fun f => o l r f k * w f)%C) <= nrm w)%R.
Proof.
  intros Hc Hr. set (x := fun k => Csum (basis D) (fun f => o l r f k * w f)%C). pose proof (Hc l r w x Hr) as H.
  assert (E : form (o l r) w x = RtoC (nrm x)).
  { unfold form. rewrite Csum_swap. unfold nrm. rewrite <- Csum_RtoC. apply Csum_ext. intros k _. rewrite <- Cconj_mult_norm2. rewrite (Cmult_comm (Cconj (x k))). unfold x at 2. rewrite <- Csum_scal_r. apply Csum_ext. intros; ring. }
  rewrite E in H. cbn [fst RtoC] in H. lra.
Qed.
Lemma contr_left o l r w : contr o -> length r = ncl -> (nrm (fun k => Csum (basis D) (fun g => o l r k g * Cconj (w g))%C) <= nrm w)%R.
Proof.
  intros Hc Hr. set (x := fun k => Csum (basis D) (fun g => o l r k g * Cconj (w g))%C). pose proof (Hc l r (fun k => Cconj (x k)) w Hr) as H.
  assert (N : nrm (fun k => Cconj (x k)) = nrm x) by (apply Rsum_ext; intros; apply Cnorm2_conj).
  assert (E : form (o l r) (fun k => Cconj (x k)) w = RtoC (nrm x)).
  { unfold form, nrm. rewrite <- Csum_RtoC. apply Csum_ext. intros k _. rewrite <- Cconj_mult_norm2. unfold x at 3. rewrite <- Csum_scal_l. apply Csum_ext. intros; ring. }
  rewrite E, N in H. cbn [fst RtoC] in H. lra.
Qed.
End Contraction.

(** ** The bound *)
Lemma sqrt2_sq : (sqrt 2 * sqrt 2 = 2)%R.
Proof. apply sqrt_sqrt. lra. Qed.
Lemma mean_ineq x z : (2 * (x * z) <= sqrt 2 * (x * x) + sqrt 2 / 2 * (z * z))%R.
Proof.
  pose proof (Rle_0_sqr (sqrt 2 * x - z)) as H. unfold Rsqr in H. pose proof sqrt2_sq as E. pose proof (sqrt_pos 2) as P.
  set (t := sqrt 2) in *. clearbody t.
  assert (E1 : ((t * x - z) * (t * x - z) = 2 * (x * x) - 2 * t * (x * z) + z * z)%R) by (transitivity ((t * t) * (x * x) - 2 * t * (x * z) + z * z)%R; [ring|now rewrite E]).
  rewrite E1 in H. pose proof (Rmult_le_pos _ _ P H) as H1.
  assert (E2 : (t * (2 * (x * x) - 2 * t * (x * z) + z * z) = 2 * t * (x * x) - 2 * (t * t) * (x * z) + t * (z * z))%R) by ring. rewrite E2, E in H1. lra.
Qed.
Lemma point_ineq (x0 x1 y0 y1 : C) :
  (fst (x0 * y0 + x0 * y1 + x1 * y0 - x1 * y1)%C <= sqrt 2 / 2 * (Cnorm2 x0 + Cnorm2 x1 + Cnorm2 y0 + Cnorm2 y1))%R.
Proof.
  destruct x0 as [a b], x1 as [c d], y0 as [e f], y1 as [g h]. unfold Cnorm2. cbn.
  pose proof (mean_ineq a (e + g)). pose proof (mean_ineq (- b) (f + h)). pose proof (mean_ineq c (e - g)). pose proof (mean_ineq (- d) (f - h)). lra.
Qed.
Lemma chsh_vectors D n (x0 x1 y0 y1 : values -> C) : (nrm D x0 <= n -> nrm D x1 <= n -> nrm D y0 <= n -> nrm D y1 <= n ->
  fst (Csum (basis D) (fun k => x0 k * y0 k + x0 k * y1 k + x1 k * y0 k - x1 k * y1 k)%C) <= 2 * sqrt 2 * n)%R.
Proof.
  intros H1 H2 H3 H4. rewrite re_sum. eapply Rle_trans; [apply Rsum_le; intros k _; apply point_ineq|].
  rewrite Rsum_scal_l, !Rsum_plus. fold (nrm D x0) (nrm D x1) (nrm D y0) (nrm D y1). pose proof (sqrt_pos 2). nra.
Qed.
Lemma nrm_opp D x : nrm D (fun k => - x k)%C = nrm D x.
Proof. apply Rsum_ext. intros k _. unfold Cnorm2. cbn. ring. Qed.
Lemma chsh_abs D n (x0 x1 y0 y1 : values -> C) : (nrm D x0 <= n -> nrm D x1 <= n -> nrm D y0 <= n -> nrm D y1 <= n ->
  Rabs (fst (Csum (basis D) (fun k => x0 k * y0 k + x0 k * y1 k + x1 k * y0 k - x1 k * y1 k)%C)) <= 2 * sqrt 2 * n)%R.
Proof.
  intros H1 H2 H3 H4. apply Rabs_le. split; [|now apply chsh_vectors].
  pose proof (chsh_vectors D n (fun k => - x0 k)%C (fun k => - x1 k)%C y0 y1) as H. rewrite !nrm_opp in H. specialize (H H1 H2 H3 H4).
  rewrite (Csum_ext _ _ (fun k => RtoC (-1) * (x0 k * y0 k + x0 k * y1 k + x1 k * y0 k - x1 k * y1 k))%C) in H by (intros; apply C_eq; cbn; ring).
  rewrite Csum_scal_l in H. cbn [fst Cmult RtoC snd] in H. lra.
Qed.
Definition xvec D (o : observable) (b : branch) : values -> C := fun k => Csum (basis D) (fun f => o (b_label b) (b_reg b) f k * b_wave b f)%C.
Definition yvec D (o : observable) (b : branch) : values -> C := fun k => Csum (basis D) (fun g => o (b_label b) (b_reg b) k g * Cconj (b_wave b g))%C.
Lemma expect_comp D o1 o2 b : expect1 D (comp D o1 o2) b = Csum (basis D) (fun k => xvec D o1 b k * yvec D o2 b k)%C.
Proof.
  unfold expect1, comp, xvec, yvec.
  etransitivity; [apply (Csum_ext _ _ (fun f => Csum (basis D) (fun k => Csum (basis D) (fun g => (o1 (b_label b) (b_reg b) f k * b_wave b f) * (o2 (b_label b) (b_reg b) k g * Cconj (b_wave b g)))%C)))|].
  - intros f _. rewrite Csum_swap. apply Csum_ext. intros k _. rewrite <- Csum_scal_r. apply Csum_ext. intros; ring.
  - rewrite Csum_swap. apply Csum_ext. intros k _. rewrite Csum_prod. reflexivity.
Qed.
(** An observable that does not look at the label. *)
Definition unlabelled (o : observable) : Prop := forall l l' r f g, o l r f g = o l' r f g.
Lemma unlabelled_before D op o : unlabelled o -> unlabelled (before D op o).
Proof.
  intros H l l' r f g. destruct op as [A h v|T|F|opt cl]; cbn [before].
  - apply Csum_ext. intros f' _. apply Csum_ext. intros g' _. now rewrite (H l l').
  - apply Csum_ext. intros f' _. apply Csum_ext. intros g' _. now rewrite (H l l').
  - apply H.
  - now rewrite (H l l').
Qed.
Lemma unlabelled_before_all D ops o : unlabelled o -> unlabelled (before_all D ops o).
Proof. intro H. induction ops as [|op ops IH]; [exact H|]. now apply unlabelled_before. Qed.
(** The branches of two preparations that differ in the classical channels [K] only. *)
Definition alike D K (b b' : branch) : Prop := same_outside K (b_reg b) (b_reg b') /\ forall f, valid D f -> b_wave b f = b_wave b' f.
Lemma blind_same D ncl S K o l l' r r' f g : blind D ncl S K o -> unlabelled o -> length r = ncl -> same_outside K r r' -> valid D f -> valid D g -> o l r f g = o l' r' f g.
Proof.
  intros [B1 B2] Hu Hr Hs Vf Vg. rewrite (Hu l' l). destruct (agree_on D S f g) eqn:E.
  - apply B2; try assumption; intros c Hc; reflexivity.
  - rewrite !B1; try assumption; [reflexivity|]. destruct Hs; congruence.
Qed.
Lemma xvec_alike D ncl S K o b b' k : blind D ncl S K o -> unlabelled o -> length (b_reg b) = ncl -> alike D K b b' -> valid D k -> xvec D o b k = xvec D o b' k.
Proof. intros Hb Hu Hr [H1 H2] Vk. apply Csum_ext. intros f Hf. apply basis_in in Hf. rewrite H2 by exact Hf. f_equal. now apply (blind_same D ncl S K). Qed.
Lemma yvec_alike D ncl S K o b b' k : blind D ncl S K o -> unlabelled o -> length (b_reg b) = ncl -> alike D K b b' -> valid D k -> yvec D o b k = yvec D o b' k.
Proof. intros Hb Hu Hr [H1 H2] Vk. apply Csum_ext. intros f Hf. apply basis_in in Hf. rewrite H2 by exact Hf. f_equal. now apply (blind_same D ncl S K). Qed.
Lemma one_branch D ncl SA KA SB KB o0 o1 p0 p1 b00 b01 b10 b11 :
  blind D ncl SB KB o0 -> blind D ncl SB KB o1 -> blind D ncl SA KA p0 -> blind D ncl SA KA p1 ->
  unlabelled o0 -> unlabelled o1 -> unlabelled p0 -> unlabelled p1 -> contr D ncl o0 -> contr D ncl o1 -> contr D ncl p0 -> contr D ncl p1 ->
  length (b_reg b00) = ncl -> length (b_reg b01) = ncl -> length (b_reg b10) = ncl ->
  alike D KB b00 b01 -> alike D KB b10 b11 -> alike D KA b00 b10 -> alike D KA b01 b11 ->
  (Rabs (fst (expect1 D (comp D o0 p0) b00) + fst (expect1 D (comp D o0 p1) b01) + fst (expect1 D (comp D o1 p0) b10) - fst (expect1 D (comp D o1 p1) b11))
   <= 2 * sqrt 2 * nrm D (b_wave b00))%R.
Proof.
  intros Bo0 Bo1 Bp0 Bp1 Uo0 Uo1 Up0 Up1 Co0 Co1 Cp0 Cp1 R00 R01 R10 A1 A2 A3 A4.
  rewrite !expect_comp. set (x0 := xvec D o0 b00). set (x1 := xvec D o1 b10). set (y0 := yvec D p0 b00). set (y1 := yvec D p1 b01).
  rewrite (Csum_ext (basis D) (fun k => xvec D o0 b01 k * y1 k)%C (fun k => x0 k * y1 k)%C).
  2:{ intros k Hk. apply basis_in in Hk. unfold x0. now rewrite (xvec_alike D ncl SB KB o0 b00 b01 k). }
  rewrite (Csum_ext (basis D) (fun k => x1 k * yvec D p0 b10 k)%C (fun k => x1 k * y0 k)%C).
  2:{ intros k Hk. apply basis_in in Hk. unfold y0. now rewrite (yvec_alike D ncl SA KA p0 b00 b10 k). }
  rewrite (Csum_ext (basis D) (fun k => xvec D o1 b11 k * yvec D p1 b11 k)%C (fun k => x1 k * y1 k)%C).
  2:{ intros k Hk. apply basis_in in Hk. unfold x1, y1. now rewrite (xvec_alike D ncl SB KB o1 b10 b11 k), (yvec_alike D ncl SA KA p1 b01 b11 k). }
  assert (E : Csum (basis D) (fun k => x0 k * y0 k + x0 k * y1 k + x1 k * y0 k - x1 k * y1 k)%C
    = (Csum (basis D) (fun k => x0 k * y0 k) + Csum (basis D) (fun k => x0 k * y1 k) + Csum (basis D) (fun k => x1 k * y0 k) - Csum (basis D) (fun k => x1 k * y1 k))%C).
  { rewrite <- !Csum_plus. unfold Cminus. replace (- Csum (basis D) (fun k => x1 k * y1 k))%C with (RtoC (-1) * Csum (basis D) (fun k => x1 k * y1 k))%C by (apply C_eq; cbn; ring).
    rewrite <- Csum_scal_l, <- Csum_plus. apply Csum_ext. intros k _. apply C_eq; cbn; ring. }
  pose proof (chsh_abs D (nrm D (b_wave b00)) x0 x1 y0 y1) as H. rewrite E in H. cbn [fst Cplus Cminus Copp] in H. apply H.
  - now apply (contr_right D ncl).
  - rewrite (nrm_ext D (b_wave b00) (b_wave b10)) by apply A3. now apply (contr_right D ncl).
  - now apply (contr_left D ncl).
  - rewrite (nrm_ext D (b_wave b00) (b_wave b01)) by apply A1. now apply (contr_left D ncl).
Qed.
Lemma many_branches D ncl SA KA SB KB o0 o1 p0 p1 :
  blind D ncl SB KB o0 -> blind D ncl SB KB o1 -> blind D ncl SA KA p0 -> blind D ncl SA KA p1 ->
  unlabelled o0 -> unlabelled o1 -> unlabelled p0 -> unlabelled p1 -> contr D ncl o0 -> contr D ncl o1 -> contr D ncl p0 -> contr D ncl p1 ->
  forall E00 E01 E10 E11, registers ncl E00 -> registers ncl E01 -> registers ncl E10 ->
  Forall2 (alike D KB) E00 E01 -> Forall2 (alike D KB) E10 E11 -> Forall2 (alike D KA) E00 E10 -> Forall2 (alike D KA) E01 E11 ->
  (Rabs (fst (expect D E00 (comp D o0 p0)) + fst (expect D E01 (comp D o0 p1)) + fst (expect D E10 (comp D o1 p0)) - fst (expect D E11 (comp D o1 p1)))
   <= 2 * sqrt 2 * Rsum E00 (fun b => nrm D (b_wave b)))%R.
Proof.
  intros Bo0 Bo1 Bp0 Bp1 Uo0 Uo1 Up0 Up1 Co0 Co1 Cp0 Cp1. induction E00 as [|b00 E00 IH]; intros E01 E10 E11 R1 R2 R3 A1 A2 A3 A4.
  - inversion A1; subst. inversion A3; subst. inversion A2; subst. cbn. rewrite Rabs_R0 || idtac. replace (0 + 0 + 0 - 0)%R with 0%R by ring. rewrite Rabs_R0. lra.
  - inversion A1 as [|? b01 ? E01' B1 C1]; subst. inversion A3 as [|? b10 ? E10' B3 C3]; subst. inversion A2 as [|? b11 ? E11' B2 C2]; subst. inversion A4 as [|? ? ? ? B4 C4]; subst.
    assert (H1 := one_branch D ncl SA KA SB KB o0 o1 p0 p1 b00 b01 b10 b11 Bo0 Bo1 Bp0 Bp1 Uo0 Uo1 Up0 Up1 Co0 Co1 Cp0 Cp1 (R1 b00 (or_introl eq_refl)) (R2 b01 (or_introl eq_refl)) (R3 b10 (or_introl eq_refl)) B1 B2 B3 B4).
    assert (H2 := IH E01' E10' E11' (fun b H => R1 b (or_intror H)) (fun b H => R2 b (or_intror H)) (fun b H => R3 b (or_intror H)) C1 C2 C3 C4).
    unfold expect in *. rewrite !Csum_cons, Rsum_cons. cbn [fst Cplus]. 
    match goal with |- (Rabs ?z <= _)%R => match type of H1 with (Rabs ?x <= _)%R => match type of H2 with (Rabs ?y <= _)%R => replace z with (x + y)%R by ring; eapply Rle_trans; [apply Rabs_triang|]; lra end end end.
Qed.
(** The verdicts as observables. *)
Lemma diag_unlabelled a : unlabelled (diag a).
Proof. intros l l' r f g. reflexivity. Qed.
Lemma diag_blind D ncl S Q a : verdict ncl Q a -> blind D ncl S (fun c => negb (Q c)) (diag a).
Proof.
  intros [_ Ha]. split; unfold diag.
  - intros l r f g Hr Vf Vg E. destruct (leqb f g) eqn:Ef; [|reflexivity]. apply leqb_spec in Ef. subst. exfalso. assert (X : agree_on D S g g = true) by (apply agree_on_spec; reflexivity). congruence.
  - intros l r r' f f' g g' Hr Hs Vf Vf' Vg Vg' E E' Sf Sg. assert (X : leqb f g = leqb f' g').
    { apply eq_true_iff_eq. rewrite !leqb_spec. pose proof (proj1 (agree_on_spec D S f g) E) as A1. pose proof (proj1 (agree_on_spec D S f' g') E') as A2.
      split; intro H; subst; (eapply values_ext; [eassumption..|]); intros c Hc; (destruct (S c) eqn:Es; [auto|]).
      - rewrite <- (Sf c Hc Es). now apply Sg.
      - rewrite (Sf c Hc Es). symmetry. now apply Sg. }
    rewrite X. destruct (leqb f' g'); [|reflexivity]. f_equal. apply Ha; [exact Hr|destruct Hs; congruence|]. now apply outside_inside.
Qed.
Lemma comp_diag D ncl a b : agree D ncl (comp D (diag a) (diag b)) (diag (fun r => a r * b r)%R).
Proof.
  intros l r f g Hr Vf Vg. unfold comp, diag. rewrite (Csum_single _ f); [|apply basis_nodup|now apply basis_in|].
  - rewrite leqb_refl. destruct (leqb f g); [now rewrite RtoC_mult|ring].
  - intros k _ Hn. destruct (leqb f k) eqn:E; [apply leqb_spec in E; congruence|ring].
Qed.
