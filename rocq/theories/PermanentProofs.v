(** Optical elements on states with several photons: the amplitudes are permanents of the
    one-photon amplitudes. *)
From Coq Require Import Reals List Arith Lia Lra Bool Permutation.
From Coquelicot Require Import Complex.
From Verif Require Import Prelude NamesModel NamesSpec NamesProofs FockModel FockSpec BosonProofs FockProofs GateProofs PropFock StateModel StateSpec StateProofs ApplyProofs
  CollectionModel EvalModel EvalSpec EvalProofs ColumnSpec ColumnProofs TemporalSpec TemporalProofs InterferenceSpec ArrangementProofs InterferenceProofs ExperimentSpec.
Import ListNotations.

(** ** Functions on photon numbers *)
Definition fockf := values -> C.
Definition table (n : nat) (f : nat -> nat) : values := map f (seq 0 n).
Lemma table_length n f : length (table n f) = n.
Proof. unfold table. now rewrite map_length, seq_length. Qed.
Lemma table_nth n f i : i < n -> nth i (table n f) 0 = f i.
Proof.
  intro H. unfold table. rewrite nth_indep with (d' := f 0) by (rewrite map_length, seq_length; exact H). rewrite map_nth, seq_nth by exact H. reflexivity.
Qed.
Lemma table_ext n f g : (forall i, i < n -> f i = g i) -> table n f = table n g.
Proof. intro H. unfold table. apply map_ext_in. intros i Hi. apply in_seq in Hi. apply H. lia. Qed.
Lemma table_self vs : table (length vs) (fun i => nth i vs 0) = vs.
Proof. apply (nth_ext_0 _ _ (length vs)); [apply table_length|reflexivity|]. intros i Hi. now rewrite table_nth. Qed.
Definition put1 (c x : nat) (vs : values) : values := table (length vs) (fun i => if i =? c then x else nth i vs 0).
Definition put2 (h v x y : nat) (vs : values) : values := table (length vs) (fun i => if i =? h then x else if i =? v then y else nth i vs 0).
Lemma put1_length c x vs : length (put1 c x vs) = length vs.
Proof. apply table_length. Qed.
Lemma put2_length h v x y vs : length (put2 h v x y vs) = length vs.
Proof. apply table_length. Qed.
Lemma photons_table n f : NamesSpec.photons (table n f) = fold_right Nat.add 0 (map f (seq 0 n)).
Proof. unfold table. induction (map f (seq 0 n)) as [|x l IH]; [reflexivity|]. cbn. now rewrite IH. Qed.
Lemma photons_put1 c x vs : c < length vs -> NamesSpec.photons (put1 c x vs) + nth c vs 0 = NamesSpec.photons vs + x.
Proof.
  revert c. induction vs as [|a vs IH]; intros c Hc; [cbn in Hc; lia|]. destruct c as [|c].
  - unfold put1, table. cbn [length seq map nth photons]. rewrite <- seq_shift, map_map. cbn [Nat.eqb].
    change (map (fun i => nth i vs 0) (seq 0 (length vs))) with (table (length vs) (fun i => nth i vs 0)). rewrite table_self. lia.
  - unfold put1, table. cbn [length seq map nth photons]. rewrite <- seq_shift, map_map. cbn [Nat.eqb nth].
    cbn [length] in Hc. specialize (IH c ltac:(lia)). unfold put1, table in IH. lia.
Qed.
Lemma put2_put1 h v x y vs : h <> v -> put2 h v x y vs = put1 h x (put1 v y vs).
Proof.
  intros Hn. unfold put2, put1 at 1. rewrite put1_length. apply table_ext. intros i Hi. destruct (Nat.eqb_spec i h); [reflexivity|]. unfold put1. rewrite table_nth by exact Hi. reflexivity.
Qed.
Lemma photons_put2 h v x y vs : h < length vs -> v < length vs -> h <> v -> NamesSpec.photons (put2 h v x y vs) + nth h vs 0 + nth v vs 0 = NamesSpec.photons vs + x + y.
Proof.
  intros Hh Hv Hn. rewrite put2_put1 by exact Hn. pose proof (photons_put1 h x (put1 v y vs)) as E1. rewrite put1_length in E1. specialize (E1 Hh). pose proof (photons_put1 v y vs Hv) as E2.
  assert (E3 : nth h (put1 v y vs) 0 = nth h vs 0).
  { unfold put1. rewrite table_nth by exact Hh. replace (h =? v) with false by (symmetry; apply Nat.eqb_neq; lia). reflexivity. }
  rewrite E3 in E1. lia.
Qed.

(** Creation of a photon in channel [c], and the ideal (untruncated) action of an element. *)
Definition create (c : nat) (F : fockf) : fockf := fun vs =>
  match nth c vs 0 with 0 => RtoC 0 | S x => (RtoC (sqrt (INR (S x))) * F (put1 c x vs))%C end.
Definition gate_op (e : optic) (F : fockf) : fockf := fun vs =>
  let h := fst (snd e) in let v := snd (snd e) in let T := nth h vs 0 + nth v vs 0 in
  Csum (seq 0 (S T)) (fun n => (gam (mat2_tr (fst e)) T n (nth h vs 0) * F (put2 h v n (T - n) vs))%C).

Lemma nrm_up_l n m u v : (sqrt (INR (S n)) * nrm (S n) m u v = nrm n m u v)%R.
Proof.
  unfold nrm. rewrite <- sqrt_mult_alt by apply pos_INR. f_equal. change (fact (S n)) with (S n * fact n). rewrite <- Nat.mul_assoc, (mult_INR (S n)).
  pose proof (fact_pos_R n m). assert (0 < INR (S n))%R by (apply lt_0_INR; lia). field. split; lra.
Qed.
Lemma nrm_up_r n m u v : (sqrt (INR (S m)) * nrm n (S m) u v = nrm n m u v)%R.
Proof.
  unfold nrm. rewrite <- sqrt_mult_alt by apply pos_INR. f_equal. change (fact (S m)) with (S m * fact m). replace (fact n * (S m * fact m)) with (S m * (fact n * fact m)) by ring. rewrite (mult_INR (S m)).
  pose proof (fact_pos_R n m). assert (0 < INR (S m))%R by (apply lt_0_INR; lia). field. split; lra.
Qed.
Lemma nrm_down_l n m u v : (sqrt (INR (S u)) * nrm n m u v = nrm n m (S u) v)%R.
Proof.
  unfold nrm. rewrite <- sqrt_mult_alt by apply pos_INR. f_equal. change (fact (S u)) with (S u * fact u). rewrite <- Nat.mul_assoc, (mult_INR (S u)). pose proof (fact_pos_R n m). field. lra.
Qed.
Lemma nrm_down_r n m u v : (sqrt (INR (S v)) * nrm n m u v = nrm n m u (S v))%R.
Proof.
  unfold nrm. rewrite <- sqrt_mult_alt by apply pos_INR. f_equal. change (fact (S v)) with (S v * fact v). replace (fact u * (S v * fact v)) with (S v * (fact u * fact v)) by ring. rewrite (mult_INR (S v)). pose proof (fact_pos_R n m). field. lra.
Qed.
Definition downs (x : nat) (f : nat -> C) : C := match x with 0 => RtoC 0 | S y => (RtoC (sqrt (INR (S y))) * f y)%C end.
Lemma gam_create_l B T n u : n <= T -> u <= S T ->
  (RtoC (sqrt (INR (S n))) * gam B (S T) (S n) u = m00 B * downs u (fun x => gam B T n x) + m10 B * downs (S T - u) (fun _ => gam B T n u))%C.
Proof.
  intros Hn Hu. unfold gam. change (S T - S n) with (T - n). rewrite bp_S_l.
  transitivity ((m00 B * prev (bp B n (T - n)) u + m10 B * bp B n (T - n) u) * RtoC (nrm n (T - n) u (S T - u)))%C.
  { rewrite <- (nrm_up_l n (T - n)), RtoC_mult. ring. }
  destruct (S T - u) as [|v] eqn:Ev.
  - assert (u = S T) by lia. subst u. rewrite (bp_high B n (T - n) (S T)) by lia. cbn [prev downs]. replace (T - T) with 0 by lia.
    rewrite <- nrm_down_l, RtoC_mult. ring.
  - assert (Hv : T - u = v) by lia. cbn [downs]. rewrite Hv, <- nrm_down_r, RtoC_mult. destruct u as [|x]; cbn [prev downs].
    + ring.
    + replace (T - x) with (S v) by lia. rewrite <- nrm_down_r, RtoC_mult, <- nrm_down_l, RtoC_mult. ring.
Qed.
Lemma gam_create_r B T n u : n <= T -> u <= S T ->
  (RtoC (sqrt (INR (S (T - n)))) * gam B (S T) n u = m01 B * downs u (fun x => gam B T n x) + m11 B * downs (S T - u) (fun _ => gam B T n u))%C.
Proof.
  intros Hn Hu. unfold gam. replace (S T - n) with (S (T - n)) by lia. rewrite bp_S_r.
  transitivity ((m01 B * prev (bp B n (T - n)) u + m11 B * bp B n (T - n) u) * RtoC (nrm n (T - n) u (S T - u)))%C.
  { rewrite <- (nrm_up_r n (T - n)), RtoC_mult. ring. }
  destruct (S T - u) as [|v] eqn:Ev.
  - assert (u = S T) by lia. subst u. rewrite (bp_high B n (T - n) (S T)) by lia. cbn [prev downs]. replace (T - T) with 0 by lia.
    rewrite <- nrm_down_l, RtoC_mult. ring.
  - assert (Hv : T - u = v) by lia. cbn [downs]. rewrite Hv, <- nrm_down_r, RtoC_mult. destruct u as [|x]; cbn [prev downs].
    + ring.
    + replace (T - x) with (S v) by lia. rewrite <- nrm_down_r, RtoC_mult, <- nrm_down_l, RtoC_mult. ring.
Qed.

Lemma nth_put1 c x vs i : i < length vs -> nth i (put1 c x vs) 0 = if i =? c then x else nth i vs 0.
Proof. intro H. unfold put1. now rewrite table_nth. Qed.
Lemma nth_put2 h v x y vs i : i < length vs -> nth i (put2 h v x y vs) 0 = if i =? h then x else if i =? v then y else nth i vs 0.
Proof. intro H. unfold put2. now rewrite table_nth. Qed.
Lemma put2_ext h v x y vs ws : length vs = length ws -> (forall i, i < length vs -> i <> h -> i <> v -> nth i vs 0 = nth i ws 0) -> put2 h v x y vs = put2 h v x y ws.
Proof.
  intros Hl H. unfold put2. rewrite <- Hl. apply table_ext. intros i Hi. destruct (Nat.eqb_spec i h); [reflexivity|]. destruct (Nat.eqb_spec i v); [reflexivity|]. now apply H.
Qed.
Lemma put1_ext c x vs ws : length vs = length ws -> (forall i, i < length vs -> i <> c -> nth i vs 0 = nth i ws 0) -> put1 c x vs = put1 c x ws.
Proof. intros Hl H. unfold put1. rewrite <- Hl. apply table_ext. intros i Hi. destruct (Nat.eqb_spec i c); [reflexivity|]. now apply H. Qed.
Lemma put2_put1_h h v x y z vs : put2 h v x y (put1 h z vs) = put2 h v x y vs.
Proof. apply put2_ext; [apply put1_length|]. rewrite put1_length. intros i Hi Hh Hv. rewrite nth_put1 by exact Hi. now replace (i =? h) with false by (symmetry; now apply Nat.eqb_neq). Qed.
Lemma put2_put1_v h v x y z vs : put2 h v x y (put1 v z vs) = put2 h v x y vs.
Proof. apply put2_ext; [apply put1_length|]. rewrite put1_length. intros i Hi Hh Hv. rewrite nth_put1 by exact Hi. now replace (i =? v) with false by (symmetry; now apply Nat.eqb_neq). Qed.
Ltac eqbs := repeat match goal with |- context [?a =? ?b] => destruct (Nat.eqb_spec a b) end; subst; try reflexivity; try congruence; try lia.
Lemma put1_h_put2 h v x y z vs : put1 h z (put2 h v x y vs) = put2 h v z y vs.
Proof. apply (nth_ext_0 _ _ (length vs)); [now rewrite put1_length, put2_length|apply put2_length|]. intros i Hi. rewrite nth_put1 by (rewrite put2_length; exact Hi). rewrite !nth_put2 by exact Hi. eqbs. Qed.
Lemma put1_v_put2 h v x y z vs : h <> v -> put1 v z (put2 h v x y vs) = put2 h v x z vs.
Proof. intro Hn. apply (nth_ext_0 _ _ (length vs)); [now rewrite put1_length, put2_length|apply put2_length|]. intros i Hi. rewrite nth_put1 by (rewrite put2_length; exact Hi). rewrite !nth_put2 by exact Hi. eqbs. Qed.
Lemma put1_put2_comm c h v x y z vs : c <> h -> c <> v -> put1 c z (put2 h v x y vs) = put2 h v x y (put1 c z vs).
Proof.
  intros H1 H2. apply (nth_ext_0 _ _ (length vs)); [now rewrite put1_length, put2_length|now rewrite put2_length, put1_length|]. intros i Hi. rewrite nth_put1 by (rewrite put2_length; exact Hi).
  rewrite !nth_put2 by (try rewrite put1_length; exact Hi). rewrite nth_put1 by exact Hi. eqbs.
Qed.
Lemma Cdowns x (f : nat -> C) c : (c * downs x f)%C = downs x (fun y => (c * f y)%C).
Proof. destruct x; cbn [downs]; ring. Qed.
Lemma downs_ext x f g : (forall y, x = S y -> f y = g y) -> downs x f = downs x g.
Proof. destruct x; cbn [downs]; intro H; [reflexivity|]. now rewrite (H x eq_refl). Qed.
Lemma create_downs c F vs : create c F vs = downs (nth c vs 0) (fun x => F (put1 c x vs)).
Proof. reflexivity. Qed.
Lemma gate_op_h e F vs y : fst (snd e) <> snd (snd e) -> fst (snd e) < length vs -> snd (snd e) < length vs ->
  gate_op e F (put1 (fst (snd e)) y vs) =
  Csum (seq 0 (S (y + nth (snd (snd e)) vs 0))) (fun n => gam (mat2_tr (fst e)) (y + nth (snd (snd e)) vs 0) n y * F (put2 (fst (snd e)) (snd (snd e)) n (y + nth (snd (snd e)) vs 0 - n) vs))%C.
Proof.
  destruct e as [A [h v]]. cbn [fst snd]. intros Hn Hh Hv. unfold gate_op. cbn [fst snd]. rewrite !nth_put1 by assumption. rewrite Nat.eqb_refl. replace (v =? h) with false by (symmetry; apply Nat.eqb_neq; lia).
  apply Csum_ext. intros n _. now rewrite put2_put1_h.
Qed.
Lemma gate_op_v e F vs y : fst (snd e) <> snd (snd e) -> fst (snd e) < length vs -> snd (snd e) < length vs ->
  gate_op e F (put1 (snd (snd e)) y vs) =
  Csum (seq 0 (S (nth (fst (snd e)) vs 0 + y))) (fun n => gam (mat2_tr (fst e)) (nth (fst (snd e)) vs 0 + y) n (nth (fst (snd e)) vs 0) * F (put2 (fst (snd e)) (snd (snd e)) n (nth (fst (snd e)) vs 0 + y - n) vs))%C.
Proof.
  destruct e as [A [h v]]. cbn [fst snd]. intros Hn Hh Hv. unfold gate_op. cbn [fst snd]. rewrite !nth_put1 by assumption. rewrite Nat.eqb_refl. replace (h =? v) with false by (symmetry; apply Nat.eqb_neq; lia).
  apply Csum_ext. intros n _. now rewrite put2_put1_v.
Qed.
Lemma downs_sum {A} x (l : list A) (f : nat -> A -> C) : downs x (fun y => Csum l (f y)) = Csum l (fun a => downs x (fun y => f y a)).
Proof. destruct x; cbn [downs]; [symmetry; now apply Csum_zero|now rewrite Csum_scal_l]. Qed.
Lemma gate_create_h e F vs : fst (snd e) <> snd (snd e) -> fst (snd e) < length vs -> snd (snd e) < length vs ->
  gate_op e (create (fst (snd e)) F) vs = (m00 (fst e) * create (fst (snd e)) (gate_op e F) vs + m01 (fst e) * create (snd (snd e)) (gate_op e F) vs)%C.
Proof.
  intros Hn Hh Hv. rewrite !create_downs.
  rewrite (downs_ext _ _ _ (fun y _ => gate_op_h e F vs y Hn Hh Hv)), (downs_ext _ _ _ (fun y _ => gate_op_v e F vs y Hn Hh Hv)).
  destruct e as [A [h v]]. unfold gate_op. cbn [fst snd] in *. set (u := nth h vs 0). set (w := nth v vs 0).
  rewrite Csum_seq_S_l. rewrite create_downs, nth_put2, Nat.eqb_refl by exact Hh. cbn [downs]. rewrite Cmult_0_r, Cplus_0_l.
  destruct (u + w) as [|T] eqn:ET.
  - replace u with 0 by lia. replace w with 0 by lia. cbn [downs seq]. rewrite Csum_nil. ring.
  - transitivity (Csum (seq 0 (S T)) (fun n => (m00 (mat2_tr A) * downs u (fun x => gam (mat2_tr A) T n x) + m10 (mat2_tr A) * downs (S T - u) (fun _ => gam (mat2_tr A) T n u)) * F (put2 h v n (T - n) vs)))%C.
    { apply Csum_ext. intros n Hi. apply in_seq in Hi. rewrite <- gam_create_l by lia. rewrite create_downs, nth_put2, Nat.eqb_refl by exact Hh. cbn [downs]. rewrite put1_h_put2. change (S T - S n) with (T - n). ring. }
    replace (S T - u) with w by lia. change (m00 (mat2_tr A)) with (m00 A). change (m10 (mat2_tr A)) with (m01 A). destruct u as [|u'], w as [|w']; cbn [downs]; try lia.
    + rewrite Cmult_0_r, Cplus_0_l. replace (0 + w') with T by lia. rewrite <- !Csum_scal_l. apply Csum_ext. intros n _. ring.
    + rewrite Cmult_0_r, Cplus_0_r. replace (u' + 0) with T by lia. rewrite <- !Csum_scal_l. apply Csum_ext. intros n _. ring.
    + replace (u' + S w') with T by lia. replace (S u' + w') with T by lia. rewrite <- !Csum_scal_l, <- Csum_plus. apply Csum_ext. intros n _. ring.
Qed.
Lemma gate_create_v e F vs : fst (snd e) <> snd (snd e) -> fst (snd e) < length vs -> snd (snd e) < length vs ->
  gate_op e (create (snd (snd e)) F) vs = (m10 (fst e) * create (fst (snd e)) (gate_op e F) vs + m11 (fst e) * create (snd (snd e)) (gate_op e F) vs)%C.
Proof.
  intros Hn Hh Hv. rewrite !create_downs.
  rewrite (downs_ext _ _ _ (fun y _ => gate_op_h e F vs y Hn Hh Hv)), (downs_ext _ _ _ (fun y _ => gate_op_v e F vs y Hn Hh Hv)).
  destruct e as [A [h v]]. unfold gate_op. cbn [fst snd] in *. set (u := nth h vs 0). set (w := nth v vs 0).
  assert (Hvh : (v =? h) = false) by (apply Nat.eqb_neq; lia).
  rewrite Csum_seq_S. rewrite create_downs, nth_put2, Hvh, Nat.eqb_refl, Nat.sub_diag by exact Hv. cbn [downs]. rewrite Cmult_0_r, Cplus_0_r.
  destruct (u + w) as [|T] eqn:ET.
  - replace u with 0 by lia. replace w with 0 by lia. cbn [downs seq]. rewrite Csum_nil. ring.
  - transitivity (Csum (seq 0 (S T)) (fun n => (m01 (mat2_tr A) * downs u (fun x => gam (mat2_tr A) T n x) + m11 (mat2_tr A) * downs (S T - u) (fun _ => gam (mat2_tr A) T n u)) * F (put2 h v n (T - n) vs)))%C.
    { apply Csum_ext. intros n Hi. apply in_seq in Hi. rewrite <- gam_create_r by lia. rewrite create_downs, nth_put2, Hvh, Nat.eqb_refl by exact Hv. replace (S T - n) with (S (T - n)) by lia. cbn [downs]. rewrite put1_v_put2 by exact Hn. ring. }
    replace (S T - u) with w by lia. change (m01 (mat2_tr A)) with (m10 A). change (m11 (mat2_tr A)) with (m11 A). destruct u as [|u'], w as [|w']; cbn [downs]; try lia.
    + rewrite Cmult_0_r, Cplus_0_l. replace (0 + w') with T by lia. rewrite <- !Csum_scal_l. apply Csum_ext. intros n _. ring.
    + rewrite Cmult_0_r, Cplus_0_r. replace (u' + 0) with T by lia. rewrite <- !Csum_scal_l. apply Csum_ext. intros n _. ring.
    + replace (u' + S w') with T by lia. replace (S u' + w') with T by lia. rewrite <- !Csum_scal_l, <- Csum_plus. apply Csum_ext. intros n _. ring.
Qed.
Lemma gate_create_other e c F vs : c <> fst (snd e) -> c <> snd (snd e) -> fst (snd e) < length vs -> snd (snd e) < length vs -> c < length vs ->
  gate_op e (create c F) vs = create c (gate_op e F) vs.
Proof.
  intros Hch Hcv Hh Hv Hc. rewrite create_downs. destruct e as [A [h v]]. unfold gate_op. cbn [fst snd] in *.
  assert (Hhc : (h =? c) = false) by (apply Nat.eqb_neq; lia). assert (Hvc : (v =? c) = false) by (apply Nat.eqb_neq; lia).
  rewrite downs_sum || idtac.
  transitivity (Csum (seq 0 (S (nth h vs 0 + nth v vs 0))) (fun n => downs (nth c vs 0) (fun x => gam (mat2_tr A) (nth h vs 0 + nth v vs 0) n (nth h vs 0) * F (put2 h v n (nth h vs 0 + nth v vs 0 - n) (put1 c x vs)))))%C.
  - apply Csum_ext. intros n _. rewrite create_downs, nth_put2 by exact Hc. replace (c =? h) with false by (symmetry; now apply Nat.eqb_neq). replace (c =? v) with false by (symmetry; now apply Nat.eqb_neq).
    rewrite Cdowns. apply downs_ext. intros x _. now rewrite put1_put2_comm.
  - rewrite <- downs_sum. apply downs_ext. intros x _. rewrite !nth_put1 by assumption. now rewrite Hhc, Hvc.
Qed.

(** ** Sequences of elements *)
Lemma gate_create e c F vs : fst (snd e) <> snd (snd e) -> fst (snd e) < length vs -> snd (snd e) < length vs -> c < length vs ->
  gate_op e (create c F) vs = Csum (seq 0 (length vs)) (fun k => optic_transfer e k c * create k (gate_op e F) vs)%C.
Proof.
  intros Hn Hh Hv Hc. destruct e as [A [h v]]. cbn [fst snd] in *. unfold optic_transfer. cbn [fst snd].
  assert (Hnd : NoDup (seq 0 (length vs))) by apply seq_NoDup.
  assert (Hvh : (v =? h) = false) by (apply Nat.eqb_neq; lia).
  assert (Two : forall a b, Csum (seq 0 (length vs)) (fun k => (if k =? h then a else if k =? v then b else RtoC 0) * create k (gate_op (A, (h, v)) F) vs)%C
     = (a * create h (gate_op (A, (h, v)) F) vs + b * create v (gate_op (A, (h, v)) F) vs)%C).
  { intros a b. transitivity (Csum (seq 0 (length vs)) (fun k => (if k =? h then a * create k (gate_op (A, (h, v)) F) vs else RtoC 0) + (if k =? v then b * create k (gate_op (A, (h, v)) F) vs else RtoC 0))%C).
    - apply Csum_ext. intros k _. destruct (Nat.eqb_spec k h) as [->|]; [rewrite (proj2 (Nat.eqb_neq h v) Hn); ring|]. destruct (k =? v); ring.
    - rewrite Csum_plus. f_equal.
      + rewrite (Csum_single _ h) by (try exact Hnd; try (apply in_seq; lia); intros k _ Hk; now rewrite (proj2 (Nat.eqb_neq k h) Hk)). now rewrite Nat.eqb_refl.
      + rewrite (Csum_single _ v) by (try exact Hnd; try (apply in_seq; lia); intros k _ Hk; now rewrite (proj2 (Nat.eqb_neq k v) Hk)). now rewrite Nat.eqb_refl. }
  destruct (Nat.eqb_spec c h) as [->|Hch]; [|destruct (Nat.eqb_spec c v) as [->|Hcv]].
  - rewrite Two. exact (gate_create_h (A, (h, v)) F vs Hn Hh Hv).
  - rewrite Two. exact (gate_create_v (A, (h, v)) F vs Hn Hh Hv).
  - rewrite (Csum_single _ c) by (try exact Hnd; try (apply in_seq; lia); intros k _ Hk; rewrite (proj2 (Nat.eqb_neq k c) Hk); ring).
    rewrite Nat.eqb_refl, Cmult_1_l. exact (gate_create_other (A, (h, v)) c F vs Hch Hcv Hh Hv Hc).
Qed.
Fixpoint ideal (es : list optic) (F : fockf) : fockf := match es with [] => F | e :: r => ideal r (gate_op e F) end.
Lemma gate_op_ext e F G vs : (forall ws, length ws = length vs -> F ws = G ws) -> gate_op e F vs = gate_op e G vs.
Proof. intro H. unfold gate_op. apply Csum_ext. intros n _. now rewrite H by apply put2_length. Qed.
Lemma ideal_ext es F G vs : (forall ws, length ws = length vs -> F ws = G ws) -> ideal es F vs = ideal es G vs.
Proof.
  revert F G. induction es as [|e es IH]; intros F G H; cbn [ideal]; [now apply H|]. apply IH. intros ws Hw. apply gate_op_ext. intros us Hu. apply H. congruence.
Qed.
Lemma gate_op_sum {X} e (l : list X) (a : X -> C) (G : X -> fockf) vs :
  gate_op e (fun ws => Csum l (fun x => a x * G x ws)%C) vs = Csum l (fun x => a x * gate_op e (G x) vs)%C.
Proof.
  unfold gate_op. rewrite (Csum_ext l _ (fun x => Csum (seq 0 (S (nth (fst (snd e)) vs 0 + nth (snd (snd e)) vs 0)))
     (fun n => a x * (gam (mat2_tr (fst e)) (nth (fst (snd e)) vs 0 + nth (snd (snd e)) vs 0) n (nth (fst (snd e)) vs 0) * G x (put2 (fst (snd e)) (snd (snd e)) n (nth (fst (snd e)) vs 0 + nth (snd (snd e)) vs 0 - n) vs)))%C)).
  - rewrite Csum_swap. apply Csum_ext. intros n _. rewrite <- Csum_scal_l. apply Csum_ext. intros x _. ring.
  - intros x _. now rewrite Csum_scal_l.
Qed.
Lemma ideal_sum {X} es (l : list X) (a : X -> C) (G : X -> fockf) vs :
  ideal es (fun ws => Csum l (fun x => a x * G x ws)%C) vs = Csum l (fun x => a x * ideal es (G x) vs)%C.
Proof.
  revert G. induction es as [|e es IH]; intros G; cbn [ideal]; [reflexivity|]. rewrite <- IH. apply ideal_ext. intros ws _. apply gate_op_sum.
Qed.
Definition placed (n : nat) (e : optic) : Prop := fst (snd e) <> snd (snd e) /\ fst (snd e) < n /\ snd (snd e) < n.
Lemma ideal_create es c F vs : Forall (placed (length vs)) es -> c < length vs ->
  ideal es (create c F) vs = Csum (seq 0 (length vs)) (fun k => transfer (length vs) es k c * create k (ideal es F) vs)%C.
Proof.
  intros He. revert c F. induction He as [|e es [H1 [H2 H3]] _ IH]; intros c F Hc.
  - cbn [ideal transfer]. rewrite (Csum_single _ c); [now rewrite Nat.eqb_refl, Cmult_1_l|apply seq_NoDup|apply in_seq; lia|].
    intros k _ Hk. rewrite (proj2 (Nat.eqb_neq k c) Hk). ring.
  - cbn [ideal transfer].
    rewrite (ideal_ext es _ (fun ws => Csum (seq 0 (length vs)) (fun j => optic_transfer e j c * create j (gate_op e F) ws)%C)) by (intros ws Hw; rewrite gate_create by (try rewrite Hw; assumption); now rewrite Hw).
    rewrite ideal_sum. transitivity (Csum (seq 0 (length vs)) (fun j => Csum (seq 0 (length vs)) (fun k => transfer (length vs) es k j * optic_transfer e j c * create k (ideal es (gate_op e F)) vs)%C)).
    + apply Csum_ext. intros j Hj. apply in_seq in Hj. rewrite IH by lia. rewrite <- Csum_scal_l. apply Csum_ext. intros k _. ring.
    + rewrite Csum_swap. apply Csum_ext. intros k _. now rewrite Csum_scal_r.
Qed.

(** ** The vacuum and created photons *)
Definition ket (from : values) : fockf := fun vs => if leqb vs from then RtoC 1 else RtoC 0.
Definition vac (n : nat) : fockf := ket (repeat 0 n).
Definition creates (ks : list nat) (F : fockf) : fockf := fold_right create F ks.
Lemma leqb_false a b : a <> b -> leqb a b = false.
Proof. intro H. destruct (leqb a b) eqn:E; [apply leqb_spec in E; congruence|reflexivity]. Qed.
Lemma leqb_same a : leqb a a = true.
Proof. now apply leqb_spec. Qed.
Lemma photons_zeros vs : NamesSpec.photons vs = 0 <-> vs = repeat 0 (length vs).
Proof.
  induction vs as [|v vs IH]; cbn; [tauto|]. split.
  - intro H. assert (v = 0) by lia. subst. f_equal. apply IH. lia.
  - intro H. injection H as -> H. apply IH in H. lia.
Qed.
Lemma gam_00 B : gam B 0 0 0 = RtoC 1.
Proof.
  unfold gam. change (0 - 0) with 0. rewrite nrm_refl. unfold bp. rewrite boson_poly_binsum, !binsum_0. unfold delta. cbn [Nat.add Nat.eqb]. ring.
Qed.
Lemma gate_vac e vs : placed (length vs) e -> gate_op e (vac (length vs)) vs = vac (length vs) vs.
Proof.
  intros [Hn [Hh Hv]]. destruct e as [A [h v]]. unfold gate_op. cbn [fst snd] in *. unfold vac, ket. destruct (leqb vs (repeat 0 (length vs))) eqn:E.
  - apply leqb_spec in E. assert (G : forall i, nth i vs 0 = 0) by (intro i; rewrite E; apply nth_repeat_0). rewrite !G. cbn [Nat.add seq]. rewrite Csum_cons, Csum_nil.
    assert (Hp : NamesSpec.photons (put2 h v 0 (0 - 0) vs) = 0). { pose proof (photons_put2 h v 0 0 vs Hh Hv Hn) as X. rewrite !G in X. assert (Y : NamesSpec.photons vs = 0) by now apply photons_zeros. cbn [Nat.sub]. lia. }
    apply photons_zeros in Hp. rewrite put2_length in Hp. rewrite <- Hp, leqb_same, gam_00. ring.
  - apply Csum_zero. intros n Hi. apply in_seq in Hi. rewrite leqb_false; [ring|]. intro X.
    assert (Hp : NamesSpec.photons (put2 h v n (nth h vs 0 + nth v vs 0 - n) vs) = 0) by (apply photons_zeros; now rewrite put2_length).
    pose proof (photons_put2 h v n (nth h vs 0 + nth v vs 0 - n) vs Hh Hv Hn) as Y. assert (Z : NamesSpec.photons vs = 0) by lia. apply photons_zeros in Z. rewrite Z in E at 1. now rewrite leqb_same in E.
Qed.
Lemma ideal_vac es vs : Forall (placed (length vs)) es -> ideal es (vac (length vs)) vs = vac (length vs) vs.
Proof.
  induction 1 as [|e es He _ IH]; cbn [ideal]; [reflexivity|]. rewrite <- IH. apply ideal_ext. intros ws Hw. rewrite <- Hw. apply gate_vac. now rewrite Hw.
Qed.
Lemma create_ext c F G vs : (forall ws, length ws = length vs -> F ws = G ws) -> create c F vs = create c G vs.
Proof. intro H. rewrite !create_downs. apply downs_ext. intros y _. apply H. apply put1_length. Qed.
Lemma create_sum {X} c (l : list X) (a : X -> C) (G : X -> fockf) vs :
  create c (fun ws => Csum l (fun x => a x * G x ws)%C) vs = Csum l (fun x => a x * create c (G x) vs)%C.
Proof. rewrite create_downs, downs_sum. apply Csum_ext. intros x _. now rewrite create_downs, Cdowns. Qed.
Definition hops (n : nat) (U : nat -> nat -> C) (ks : list nat) : list (list (C * nat)) := map (fun k => map (fun j => (U j k, j)) (seq 0 n)) ks.
Lemma ideal_creates es ks vs : Forall (placed (length vs)) es -> Forall (fun k => k < length vs) ks ->
  ideal es (creates ks (vac (length vs))) vs = Csum (assignments (hops (length vs) (transfer (length vs) es) ks)) (fun t => fst t * creates (snd t) (vac (length vs)) vs)%C.
Proof.
  intros He Hk. remember (length vs) as n eqn:En. revert vs En. induction Hk as [|k ks Hk _ IH]; intros vs En.
  - cbn [creates fold_right hops map assignments]. rewrite Csum_cons, Csum_nil. cbn [fst snd fold_right]. subst n. rewrite ideal_vac by exact He. unfold creates. cbn [fold_right]. ring.
  - cbn [creates fold_right]. subst n. rewrite ideal_create by assumption. unfold hops. cbn [map assignments]. fold (hops (length vs) (transfer (length vs) es) ks). rewrite Csum_flat_map, Csum_map. apply Csum_ext. intros j Hj.
    cbn [fst snd]. rewrite Csum_map. cbn [fst snd creates fold_right].
    rewrite (create_ext j _ (fun ws => Csum (assignments (hops (length vs) (transfer (length vs) es) ks)) (fun t => fst t * creates (snd t) (vac (length vs)) ws)%C)) by (intros ws Hw; apply IH; congruence).
    rewrite create_sum, <- Csum_scal_l. apply Csum_ext. intros t _. change (fun ws : values => creates (snd t) (vac (length vs)) ws) with (creates (snd t) (vac (length vs))). unfold creates. ring.
Qed.
Lemma factorials_put1 c x vs : c < length vs -> nth c vs 0 = S x -> factorials vs = S x * factorials (put1 c x vs).
Proof.
  revert c. induction vs as [|a vs IH]; intros c Hc Hx; [cbn in Hc; lia|]. destruct c as [|c].
  - unfold put1, table. cbn [length seq map nth] in *. rewrite <- seq_shift, map_map. cbn [Nat.eqb].
    change (map (fun i => nth i vs 0) (seq 0 (length vs))) with (table (length vs) (fun i => nth i vs 0)). rewrite table_self. subst a. cbn [factorials]. change (fact (S x)) with (S x * fact x). ring.
  - unfold put1, table. cbn [length seq map nth] in *. rewrite <- seq_shift, map_map. cbn [Nat.eqb nth factorials].
    rewrite (IH c ltac:(lia) Hx). unfold put1, table. ring.
Qed.
Lemma occupation_cons n c js to x : c < n -> length to = n -> nth c to 0 = S x -> (occupation n (c :: js) = to <-> occupation n js = put1 c x to).
Proof.
  intros Hc Hl Hx. split; intro H.
  - apply (nth_ext_0 _ _ n); [apply occupation_length|now rewrite put1_length|]. intros i Hi. rewrite occupation_nth by exact Hi. rewrite nth_put1 by (now rewrite Hl).
    pose proof (f_equal (fun l => nth i l 0) H) as E. cbn beta in E. rewrite occupation_nth in E by exact Hi. cbn [count_occ] in E. destruct (Nat.eqb_spec i c) as [->|Hn].
    + destruct (Nat.eq_dec c c); [lia|congruence].
    + destruct (Nat.eq_dec c i); [congruence|exact E].
  - apply (nth_ext_0 _ _ n); [apply occupation_length|exact Hl|]. intros i Hi. rewrite occupation_nth by exact Hi.
    pose proof (f_equal (fun l => nth i l 0) H) as E. cbn beta in E. rewrite occupation_nth in E by exact Hi. rewrite nth_put1 in E by (now rewrite Hl). cbn [count_occ]. destruct (Nat.eqb_spec i c) as [->|Hn].
    + destruct (Nat.eq_dec c c); [lia|congruence].
    + destruct (Nat.eq_dec c i); [congruence|exact E].
Qed.
Lemma creates_vac js to : Forall (fun c => c < length to) js ->
  creates js (vac (length to)) to = if leqb (occupation (length to) js) to then RtoC (sqrt (INR (factorials to))) else RtoC 0.
Proof.
  intro H. remember (length to) as n eqn:En. revert to En. induction H as [|c js Hc _ IH]; intros to En.
  - cbn [creates fold_right]. unfold vac, ket. assert (Ez : occupation n [] = repeat 0 n).
    { unfold occupation. cbn [count_occ]. clear. generalize 0 at 2. induction n as [|n IH]; intro k; [reflexivity|]. cbn [seq map repeat]. now rewrite IH. }
    rewrite Ez. destruct (leqb to (repeat 0 n)) eqn:E.
    + apply leqb_spec in E. rewrite E, leqb_same, factorials_zero. cbn [INR]. now rewrite sqrt_1.
    + rewrite leqb_false; [reflexivity|]. intro X. now rewrite <- X, leqb_same in E.
  - cbn [creates fold_right]. rewrite create_downs. destruct (nth c to 0) as [|x] eqn:Ex; cbn [downs].
    + rewrite leqb_false; [reflexivity|]. intro X. pose proof (f_equal (fun l => nth c l 0) X) as E. cbn beta in E. rewrite occupation_nth, Ex in E by exact Hc. cbn [count_occ] in E. destruct (Nat.eq_dec c c); [lia|congruence].
    + fold (creates js (vac n)). rewrite IH by (now rewrite put1_length). destruct (leqb (occupation n js) (put1 c x to)) eqn:E.
      * apply leqb_spec in E. rewrite (proj2 (leqb_spec _ _)) by (apply (occupation_cons n c js to x Hc (eq_sym En) Ex); exact E).
        rewrite <- RtoC_mult, <- sqrt_mult_alt by apply pos_INR. rewrite <- mult_INR. rewrite <- (factorials_put1 c x to) by (try exact Ex; now rewrite <- En). reflexivity.
      * rewrite leqb_false; [ring|]. intro X. apply (occupation_cons n c js to x Hc (eq_sym En) Ex) in X. rewrite X, leqb_same in E. discriminate.
Qed.

(** ** Counting the orders that give the same channels *)
Lemma flat_map_length_const {A B} (f : A -> list B) l k : (forall x, In x l -> length (f x) = k) -> length (flat_map f l) = length l * k.
Proof. induction l as [|x l IH]; intro H; [reflexivity|]. cbn [flat_map]. rewrite app_length, IH by (intros; apply H; now right). rewrite (H x) by now left. cbn [length]. lia. Qed.
Lemma filter_split_length {A} (p : A -> bool) l : length (filter p l) + length (filter (fun x => negb (p x)) l) = length l.
Proof. induction l as [|x l IH]; [reflexivity|]. cbn [filter]. destruct (p x); cbn [negb length]; lia. Qed.
Lemma matching_length p ch : forall s, length (map fst (filter (fun ic => snd ic =? p) (combine (seq s (length ch)) ch))) = count_occ Nat.eq_dec ch p.
Proof.
  induction ch as [|c ch IH]; intro s; [reflexivity|]. cbn [length seq combine filter snd count_occ]. destruct (Nat.eqb_spec c p) as [->|Hn].
  - destruct (Nat.eq_dec p p); [|congruence]. cbn [map length]. now rewrite IH.
  - destruct (Nat.eq_dec c p); [congruence|]. now rewrite IH.
Qed.
Lemma count_pick ch v p : count_occ Nat.eq_dec (pickn ch v) p = length (filter (fun o => nth o ch 0 =? p) v).
Proof.
  induction v as [|o v IH]; [reflexivity|]. cbn [pickn map count_occ filter]. fold (pickn ch v). destruct (Nat.eqb_spec (nth o ch 0) p) as [E|E]; destruct (Nat.eq_dec (nth o ch 0) p); try congruence; cbn [length]; now rewrite IH.
Qed.
Lemma extended_length ch proj p :
  length (fold_left (extended ch) (proj ++ [p]) [[]]) = length (fold_left (extended ch) proj [[]]) * (count_occ Nat.eq_dec ch p - count_occ Nat.eq_dec proj p).
Proof.
  rewrite fold_left_app. cbn [fold_left]. unfold extended at 1. apply flat_map_length_const. intros v Hv. apply extended_spec in Hv. destruct Hv as [Hnd [Hb Hp]].
  rewrite map_length. set (m := map fst (filter (fun ic => snd ic =? p) (combine (seq 0 (length ch)) ch))).
  pose proof (filter_split_length (fun o => existsb (Nat.eqb o) v) m) as E. assert (Em : length m = count_occ Nat.eq_dec ch p) by apply matching_length.
  assert (Ef : length (filter (fun o => existsb (Nat.eqb o) v) m) = count_occ Nat.eq_dec proj p).
  { rewrite <- Hp, count_pick. apply Permutation_length. apply NoDup_Permutation.
    - apply NoDup_filter. apply matching_nodup.
    - now apply NoDup_filter.
    - intro o. rewrite !filter_In, existsb_in. unfold m. rewrite matching_in, Nat.eqb_eq. rewrite Forall_forall in Hb. split; intros [H1 H2]; [tauto|]. split; [split; [now apply Hb|exact H2]|exact H1]. }
  lia.
Qed.
Lemma count_app_l a (l l' : list nat) : count_occ Nat.eq_dec (l ++ l') a = count_occ Nat.eq_dec l a + count_occ Nat.eq_dec l' a.
Proof. apply count_occ_app. Qed.
Definition left_over (n : nat) (ch proj : list nat) : values := table n (fun c => count_occ Nat.eq_dec ch c - count_occ Nat.eq_dec proj c).
Lemma extended_total n ch proj : Forall (fun c => c < n) proj -> (forall c, count_occ Nat.eq_dec proj c <= count_occ Nat.eq_dec ch c) ->
  length (fold_left (extended ch) proj [[]]) * factorials (left_over n ch proj) = factorials (occupation n ch).
Proof.
  revert proj. induction proj as [|p proj IH] using rev_ind; intros Hb Hc.
  - cbn [fold_left length]. unfold left_over. rewrite Nat.mul_1_l. f_equal. unfold occupation, table. apply map_ext. intro c. cbn [count_occ]. lia.
  - apply Forall_app in Hb. destruct Hb as [Hb Hp]. inversion Hp as [|? ? Hpn _]; subst. rewrite extended_length.
    assert (Hc' : forall c, count_occ Nat.eq_dec proj c <= count_occ Nat.eq_dec ch c) by (intro c; specialize (Hc c); rewrite count_app_l in Hc; lia).
    rewrite <- (IH Hb Hc'). specialize (Hc p). rewrite count_app_l in Hc. cbn [count_occ] in Hc. destruct (Nat.eq_dec p p) as [_|]; [|congruence].
    destruct (count_occ Nat.eq_dec ch p - count_occ Nat.eq_dec proj p) as [|x] eqn:Ex; [lia|].
    rewrite (factorials_put1 p x (left_over n ch proj)) by (unfold left_over; first [rewrite table_length; exact Hpn|rewrite table_nth by exact Hpn; exact Ex]).
    rewrite <- Nat.mul_assoc. f_equal. f_equal. f_equal. unfold put1. replace (length (left_over n ch proj)) with n by (symmetry; apply table_length). unfold left_over at 1. apply table_ext. intros i Hi. rewrite count_app_l. cbn [count_occ].
    destruct (Nat.eqb_spec i p) as [->|Hn].
    + destruct (Nat.eq_dec p p); [|congruence]. lia.
    + destruct (Nat.eq_dec p i); [congruence|]. unfold left_over. rewrite table_nth by exact Hi. lia.
Qed.
Lemma filter_id_all {A} (p : A -> bool) l : (forall x, In x l -> p x = true) -> filter p l = l.
Proof. induction l as [|x l IH]; intro H; [reflexivity|]. cbn [filter]. rewrite (H x) by now left. f_equal. apply IH. intros; apply H; now right. Qed.
Lemma photon_orders n js to : length to = n -> Forall (fun c => c < n) js -> length js = NamesSpec.photons to ->
  length (filter (fun s => leqb (pickn js s) (channels_of to)) (permutations (seq 0 (NamesSpec.photons to)))) = if leqb (occupation n js) to then factorials to else 0.
Proof.
  intros Hn Hb Hl. assert (Hlc : length (channels_of to) = NamesSpec.photons to) by (rewrite <- channels_of_spec, photon_channels_pc; apply pc_length).
  assert (Ho : occupation n (channels_of to) = to) by (rewrite <- channels_of_spec; now apply occupation_channels).
  destruct (leqb (occupation n js) to) eqn:E.
  - apply leqb_spec in E. assert (Hcnt : forall c, count_occ Nat.eq_dec (channels_of to) c = count_occ Nat.eq_dec js c).
    { intro c. destruct (Nat.lt_ge_cases c n) as [Hc|Hc]; [rewrite <- !(occupation_nth n) by exact Hc; congruence|].
      rewrite !(proj1 (count_occ_not_In _ _ _)); [reflexivity|rewrite Forall_forall in Hb; intro X; apply Hb in X; lia|].
      rewrite <- channels_of_spec, photon_channels_pc. intro X. apply pc_in in X. lia. }
    pose proof (extended_total n js (channels_of to)) as T.
    assert (Hcb : Forall (fun c => c < n) (channels_of to)).
    { apply Forall_forall. intros c X. rewrite <- channels_of_spec, photon_channels_pc in X. apply pc_in in X. lia. }
    specialize (T Hcb (fun c => Nat.eq_le_incl _ _ (Hcnt c))). assert (Hz : factorials (left_over n js (channels_of to)) = 1).
    { apply factorials_small. unfold left_over, table. apply Forall_forall. intros x Hx. apply in_map_iff in Hx. destruct Hx as [c [<- _]]. rewrite Hcnt. lia. }
    rewrite Hz, Nat.mul_1_r, E in T. rewrite <- T. pose proof (valid_combinations_spec (channels_of to) js ltac:(congruence)) as P. rewrite Hlc in P.
    rewrite <- (Permutation_length P), valid_combinations_extended. rewrite filter_id_all; [reflexivity|]. intros s Hs. apply extended_spec in Hs. apply Nat.eqb_eq. destruct Hs as [_ [_ Hs]].
    rewrite <- Hs. unfold pickn. now rewrite map_length.
  - destruct (filter _ _) as [|s l] eqn:Ef; [reflexivity|]. exfalso. assert (Hs : In s (filter (fun s => leqb (pickn js s) (channels_of to)) (permutations (seq 0 (NamesSpec.photons to))))) by (rewrite Ef; now left).
    apply filter_In in Hs. destruct Hs as [H1 H2]. apply leqb_spec in H2. pose proof (pick_permutation js s (channels_of to) (NamesSpec.photons to) Hl H1 H2) as P.
    rewrite (occupation_perm n _ _ P), Ho, leqb_same in E. discriminate.
Qed.

(** ** The permanent *)
Lemma channels_bound vs c : In c (channels_of vs) -> c < length vs.
Proof. intro H. rewrite <- channels_of_spec, photon_channels_pc in H. apply pc_in in H. lia. Qed.
Lemma channels_length vs : length (channels_of vs) = NamesSpec.photons vs.
Proof. rewrite <- channels_of_spec, photon_channels_pc. apply pc_length. Qed.
Lemma hop_weight n (U : nat -> nat -> C) c k : c < n -> weight_in (map (fun j => (U j k, j)) (seq 0 n)) c = U c k.
Proof.
  intro Hc. unfold weight_in. rewrite Csum_map. cbn [fst snd]. rewrite (Csum_single _ c); [now rewrite Nat.eqb_refl|apply seq_NoDup|apply in_seq; lia|].
  intros j _ Hj. now rewrite (proj2 (Nat.eqb_neq j c) Hj).
Qed.
Lemma Csum_count {A} (p : A -> bool) l : Csum l (fun x => if p x then RtoC 1 else RtoC 0) = RtoC (INR (length (filter p l))).
Proof.
  induction l as [|x l IH]; [reflexivity|]. rewrite Csum_cons, IH. cbn [filter]. destruct (p x).
  - cbn [length]. rewrite S_INR, RtoC_plus. ring.
  - ring.
Qed.
Lemma hops_channels n U ks t c : In t (assignments (hops n U ks)) -> In c (snd t) -> c < n.
Proof.
  intros H Hc. destruct (assignments_in _ _ _ H Hc) as [l [Hl Hc']]. unfold hops in Hl. apply in_map_iff in Hl. destruct Hl as [k [<- _]]. rewrite map_map in Hc'. cbn [snd] in Hc'. rewrite map_id in Hc'. apply in_seq in Hc'. lia.
Qed.
Lemma ideal_permanent es from to : length from = length to -> NamesSpec.photons from = NamesSpec.photons to -> Forall (placed (length to)) es ->
  (RtoC (sqrt (INR (factorials to))) * ideal es (creates (channels_of from) (vac (length to))) to = permanent (transfer (length to) es) from to)%C.
Proof.
  intros Hlen Hph He. set (n := length to) in *. set (U := transfer n es).
  assert (Hfrom : Forall (fun k => k < n) (channels_of from)) by (apply Forall_forall; intros c Hc; rewrite <- Hlen; now apply channels_bound).
  pose proof (ideal_creates es (channels_of from) to He Hfrom) as EI. fold n in EI. rewrite EI. clear EI. fold U. rewrite <- Csum_scal_l.
  transitivity (Csum (assignments (hops n U (channels_of from))) (fun t => fst t * Csum (permutations (seq 0 (NamesSpec.photons to))) (fun s => if leqb (pickn (snd t) s) (channels_of to) then RtoC 1 else RtoC 0)))%C.
  { apply Csum_ext. intros t Ht. rewrite Csum_count.
    assert (Hl : length (snd t) = NamesSpec.photons to) by (rewrite (assignments_length _ _ Ht); unfold hops; rewrite map_length, channels_length; exact Hph).
    assert (Hb : Forall (fun c => c < n) (snd t)) by (apply Forall_forall; intros c Hc; now apply (hops_channels n U _ t c Ht)).
    rewrite (photon_orders n (snd t) to eq_refl Hb Hl). pose proof (creates_vac (snd t) to Hb) as EC. fold n in EC. rewrite EC. clear EC. destruct (leqb (occupation n (snd t)) to).
    - transitivity (fst t * RtoC (sqrt (INR (factorials to)) * sqrt (INR (factorials to))))%C; [rewrite RtoC_mult; ring|]. rewrite sqrt_sqrt by apply pos_INR. reflexivity.
    - cbn [INR]. ring. }
  transitivity (Csum (permutations (seq 0 (NamesSpec.photons to))) (fun s => Csum (assignments (hops n U (channels_of from))) (fun t => if leqb (pickn (snd t) s) (channels_of to) then fst t else RtoC 0))).
  { rewrite <- Csum_swap. apply Csum_ext. intros t _. rewrite <- Csum_scal_l. apply Csum_ext. intros s _. destruct (leqb _ _); ring. }
  unfold permanent. apply Csum_ext. intros s Hs.
  assert (Hlh : length (hops n U (channels_of from)) = NamesSpec.photons to) by (unfold hops; rewrite map_length, channels_length; exact Hph).
  rewrite assignments_order by (rewrite ?Hlh, ?channels_length; try reflexivity; exact Hs). apply Cprod_ext. intros [i c] Hic. cbn [fst snd].
  pose proof (in_combine_r _ _ _ _ Hic) as Hc. pose proof (in_combine_l _ _ _ _ Hic) as Hi. apply permutations_in in Hs. apply (Permutation_in _ (Permutation_sym Hs)) in Hi. apply in_seq in Hi.
  unfold hops. rewrite nth_indep with (d' := (fun k => map (fun j => (U j k, j)) (seq 0 n)) 0) by (rewrite map_length, channels_length; lia).
  rewrite (map_nth (fun k => map (fun j => (U j k, j)) (seq 0 n))). apply hop_weight. now apply channels_bound.
Qed.
Lemma occupation_ket from vs : length from = length vs -> creates (channels_of from) (vac (length vs)) vs = (RtoC (sqrt (INR (factorials from))) * ket from vs)%C.
Proof.
  intro H. rewrite creates_vac by (apply Forall_forall; intros c Hc; rewrite <- H; now apply channels_bound). rewrite <- channels_of_spec, occupation_channels by exact H. unfold ket.
  destruct (leqb from vs) eqn:E.
  - apply leqb_spec in E. subst. rewrite leqb_same. ring.
  - rewrite leqb_false; [ring|]. intros ->. now rewrite leqb_same in E.
Qed.
Lemma ideal_ket es from to : length from = length to -> NamesSpec.photons from = NamesSpec.photons to -> Forall (placed (length to)) es ->
  ideal es (ket from) to = (permanent (transfer (length to) es) from to / RtoC (sqrt (INR (factorials from)) * sqrt (INR (factorials to))))%C.
Proof.
  intros Hlen Hph He. rewrite <- ideal_permanent by assumption.
  assert (ES : ideal es (creates (channels_of from) (vac (length to))) to = (RtoC (sqrt (INR (factorials from))) * ideal es (ket from) to)%C).
  { etransitivity; [apply (ideal_ext es _ (fun ws => Csum [tt] (fun _ => RtoC (sqrt (INR (factorials from))) * ket from ws)%C))|].
    - intros ws Hw. rewrite Csum_cons, Csum_nil. rewrite <- Hw. rewrite occupation_ket by congruence. ring.
    - etransitivity; [exact (ideal_sum es [tt] (fun _ => RtoC (sqrt (INR (factorials from)))) (fun _ => ket from) to)|]. rewrite Csum_cons, Csum_nil. ring. }
  rewrite ES. pose proof (lt_0_INR _ (factorials_pos from)) as P1. pose proof (lt_0_INR _ (factorials_pos to)) as P2. apply sqrt_lt_R0 in P1, P2. rewrite RtoC_mult.
  field. split; intro X; apply RtoC_inj in X; lra.
Qed.

(** ** The matrices of the circuit *)
Lemma Csum_image {A B} (l : list A) (l' : list B) (g : B -> A) f : NoDup l -> NoDup l' -> (forall x y, In x l' -> In y l' -> g x = g y -> x = y) ->
  (forall x, In x l' -> In (g x) l) -> (forall y, In y l -> (forall x, In x l' -> y <> g x) -> f y = RtoC 0) -> Csum l f = Csum l' (fun x => f (g x)).
Proof.
  intros Hl Hl' Hi Hin Hz. rewrite <- (Csum_map g l' f). revert l Hl Hin Hz. induction Hl' as [|x l' Hx Hl' IH]; intros l Hl Hin Hz.
  - cbn [map]. rewrite Csum_nil. apply Csum_zero. intros y Hy. apply Hz; [exact Hy|intros x []].
  - destruct (in_split _ _ (Hin x (or_introl eq_refl))) as [l1 [l2 ->]]. rewrite (Csum_perm (l1 ++ g x :: l2) (g x :: l1 ++ l2)) by (symmetry; apply Permutation_middle).
    cbn [map]. rewrite !Csum_cons. f_equal. pose proof (NoDup_remove _ _ _ Hl) as [Hnd Hn]. apply IH.
    + intros y z Hy Hz'. apply Hi; now right.
    + exact Hnd.
    + intros y Hy. assert (H := Hin y (or_intror Hy)). apply in_app_iff in H. apply in_app_iff. destruct H as [H|[H|H]]; auto. exfalso. apply Hx. rewrite (Hi x y); [exact Hy|now left|now right|exact H].
    + intros y Hy Hd. apply Hz; [apply in_app_iff in Hy; apply in_app_iff; destruct Hy; [now left|right; now right]|]. intros z [<-|Hz']; [|now apply Hd]. intros ->. exact (Hn Hy).
Qed.
Lemma put2_same h v vs ws : length ws = length vs -> same_elsewhere h v vs ws -> ws = put2 h v (nth h ws 0) (nth v ws 0) vs.
Proof.
  intros Hl Hs. apply (nth_ext_0 _ _ (length vs)); [exact Hl|apply put2_length|]. intros i Hi. rewrite nth_put2 by exact Hi. destruct (Nat.eqb_spec i h) as [->|H1]; [reflexivity|]. destruct (Nat.eqb_spec i v) as [->|H2]; [reflexivity|]. symmetry. now apply Hs.
Qed.

Lemma photons_total h v vs : h < length vs -> v < length vs -> h <> v -> nth h vs 0 + nth v vs 0 <= NamesSpec.photons vs.
Proof. intros Hh Hv Hn. pose proof (photons_put2 h v 0 0 vs Hh Hv Hn). lia. Qed.
Lemma valid_bound D vs : length vs = dN D -> NamesSpec.photons vs < dL D -> valid D vs.
Proof.
  intros Hl Hp. split; [exact Hl|]. clear Hl. induction vs as [|v vs IH]; constructor; cbn in Hp; [lia|]. apply IH. lia.
Qed.
Lemma gate_action D A h v rest x to : 1 <= dL D -> h < dN D -> v < dN D -> h <> v -> Permutation (h :: v :: rest) (seq 0 (dN D)) ->
  length to = dN D -> NamesSpec.photons to < dL D ->
  mat_vec (size_of_basis D) (full_matrix D A (h :: v :: rest)) x (index_of_values D to) = gate_op (A, (h, v)) (fun vs => x (index_of_values D vs)) to.
Proof.
  intros HL Hh Hv Hn HP Hl Hp. assert (HN : 2 <= dN D) by lia. assert (Vt : valid D to) by now apply valid_bound.
  rewrite <- Hl in Hh, Hv. pose proof (photons_total h v to Hh Hv Hn) as Htot.
  set (T := nth h to 0 + nth v to 0) in *.
  assert (Vp : forall n, n <= T -> length (put2 h v n (T - n) to) = dN D /\ NamesSpec.photons (put2 h v n (T - n) to) = NamesSpec.photons to).
  { intros n Hnn. split; [now rewrite put2_length|]. pose proof (photons_put2 h v n (T - n) to Hh Hv Hn). unfold T in *. lia. }
  assert (Vv : forall n, n <= T -> valid D (put2 h v n (T - n) to)) by (intros n Hnn; destruct (Vp n Hnn); apply valid_bound; [assumption|lia]).
  assert (N1 : forall n, nth h (put2 h v n (T - n) to) 0 = n) by (intro n; rewrite nth_put2 by exact Hh; now rewrite Nat.eqb_refl).
  assert (N2 : forall n, nth v (put2 h v n (T - n) to) 0 = T - n) by (intro n; rewrite nth_put2 by exact Hv; rewrite Nat.eqb_refl; now replace (v =? h) with false by (symmetry; apply Nat.eqb_neq; lia)).
  unfold mat_vec. rewrite (Csum_image (seq 0 (size_of_basis D)) (seq 0 (S T)) (fun n => index_of_values D (put2 h v n (T - n) to))).
  - unfold gate_op. cbn [fst snd]. fold T. apply Csum_ext. intros n Hi. apply in_seq in Hi. f_equal.
    rewrite full_matrix_tuples by (try assumption; apply Vv; lia). rewrite (proj2 (spectators D h v rest to (put2 h v n (T - n) to) HP Vt (Vv n ltac:(lia)))).
    2:{ intros c Hch Hcv. destruct (Nat.lt_ge_cases c (length to)) as [Hc|Hc].
        - rewrite nth_put2 by exact Hc. now rewrite (proj2 (Nat.eqb_neq c h) Hch), (proj2 (Nat.eqb_neq c v) Hcv).
        - rewrite !nth_overflow by (try rewrite put2_length; exact Hc). reflexivity. }
    rewrite N1, N2, gate_amp_gam by (unfold T in *; lia). fold T. rewrite gam_tr by (unfold T in *; lia). reflexivity.
  - apply seq_NoDup.
  - apply seq_NoDup.
  - intros n m Hi Hj E. apply in_seq in Hi, Hj. apply index_of_values_inj in E; [|exact HL|apply Vv; lia|apply Vv; lia]. rewrite <- (N1 n), <- (N1 m). now rewrite E.
  - intros n Hi. apply in_seq in Hi. apply in_seq. pose proof (index_of_values_bound D _ (Vv n ltac:(lia))). lia.
  - intros j Hj Hd. apply in_seq in Hj. set (ws := values_from_index D j). assert (Vw : valid D ws) by now apply values_from_index_valid.
    assert (Ej : j = index_of_values D ws) by (symmetry; apply index_values_roundtrip; [exact HL|lia]). rewrite Ej, full_matrix_tuples by assumption.
    destruct (leqb (pick rest to) (pick rest ws)) eqn:E; [|ring]. apply (spectators D h v rest to ws HP Vt Vw) in E.
    destruct (Nat.eq_dec (nth h ws 0 + nth v ws 0) T) as [ET|ET].
    + exfalso. apply (Hd (nth h ws 0)); [apply in_seq; lia|]. rewrite Ej. f_equal. rewrite <- ET. replace (nth h ws 0 + nth v ws 0 - nth h ws 0) with (nth v ws 0) by lia.
      apply put2_same; [|exact E]. destruct Vw as [Lw _]. congruence.
    + rewrite gate_amp_zero by (unfold T in ET; lia). ring.
Qed.
Lemma gate_op_local e F G vs : placed (length vs) e -> (forall ws, length ws = length vs -> NamesSpec.photons ws = NamesSpec.photons vs -> F ws = G ws) -> gate_op e F vs = gate_op e G vs.
Proof.
  intros [Hn [Hh Hv]] H. unfold gate_op. apply Csum_ext. intros n Hi. apply in_seq in Hi. f_equal. apply H; [apply put2_length|].
  pose proof (photons_put2 (fst (snd e)) (snd (snd e)) n (nth (fst (snd e)) vs 0 + nth (snd (snd e)) vs 0 - n) vs Hh Hv Hn). lia.
Qed.
Lemma ideal_local es F G vs : Forall (placed (length vs)) es -> (forall ws, length ws = length vs -> NamesSpec.photons ws = NamesSpec.photons vs -> F ws = G ws) -> ideal es F vs = ideal es G vs.
Proof.
  intro He. revert F G. induction He as [|e es Hp He IH]; intros F G H; cbn [ideal]; [now apply H|]. apply IH. intros ws Hw Hp'. apply gate_op_local; [now rewrite Hw|].
  intros us Hu Hp2. apply H; congruence.
Qed.
Lemma optic_placed D es : Forall (optic_ok D) es -> Forall (placed (dN D)) es.
Proof. apply Forall_impl. intros e (_ & H1 & H2 & H3 & _). now repeat split. Qed.
Lemma optics_place D es : Forall (optic_ok D) es -> 2 <= dN D -> exists nds, place D (optic_gates es) = Some nds /\
  Forall2 (fun e nd => on_matrix nd = fst e /\ exists rest, on_tl nd = fst (snd e) :: snd (snd e) :: rest /\ Permutation (on_tl nd) (seq 0 (dN D))) es nds.
Proof.
  intros H HN. induction H as [|e es (Hu & H1 & H2 & H3 & H4) _ (nds & E & HF)].
  - exists []. split; [reflexivity|constructor].
  - destruct (tensor_list_good (dN D) (fst (snd e)) (snd (snd e)) HN H1 H2 H3 H4) as (rest & Et & HP).
    exists (ONode (fst e) (fst (snd e) :: snd (snd e) :: rest) :: nds). split.
    + cbn [optic_gates map place]. fold (optic_gates es). now rewrite Et, E.
    + constructor; [|exact HF]. cbn [on_matrix on_tl]. split; [reflexivity|]. exists rest. now split.
Qed.
Lemma optics_act D es nds x to : 1 <= dL D -> Forall (optic_ok D) es ->
  Forall2 (fun e nd => on_matrix nd = fst e /\ exists rest, on_tl nd = fst (snd e) :: snd (snd e) :: rest /\ Permutation (on_tl nd) (seq 0 (dN D))) es nds ->
  length to = dN D -> NamesSpec.photons to < dL D -> act D nds x (index_of_values D to) = ideal es (fun vs => x (index_of_values D vs)) to.
Proof.
  intros HL He HF Hl Hp. revert x. induction HF as [|e nd es nds (Em & rest & Et & HP) HF IH]; intro x; [reflexivity|].
  inversion He as [|? ? (_ & H1 & H2 & H3 & _) He']; subst. unfold act. cbn [fold_left ideal]. fold (act D nds (mat_vec (size_of_basis D) (full_matrix D (on_matrix nd) (on_tl nd)) x)).
  rewrite IH by exact He'. apply ideal_local; [rewrite Hl; now apply optic_placed|]. intros ws Hw Hpw. rewrite Em, Et. rewrite Et in HP.
  rewrite gate_action by (try assumption; congruence). now destruct e as [A [h v]].
Qed.


Lemma Csum_two' d a b (f : nat -> C) : a < d -> b < d -> a <> b -> (forall k, k < d -> k <> a -> k <> b -> f k = RtoC 0) -> Csum (seq 0 d) f = (f a + f b)%C.
Proof.
  intros Ha Hb Hn Hz. rewrite (Csum_image (seq 0 d) [a; b] (fun x => x)).
  - rewrite !Csum_cons, Csum_nil. ring.
  - apply seq_NoDup.
  - constructor; [intros [E|[]]; congruence|constructor; [intros []|constructor]].
  - auto.
  - intros x [<-|[<-|[]]]; apply in_seq; lia.
  - intros y Hy Hd. apply in_seq in Hy. apply Hz; [lia|apply Hd; now left|apply Hd; right; now left].
Qed.
Lemma optic_unitary n e : unitary2 (fst e) -> placed n e -> unitary_mat n (optic_transfer e).
Proof.
  destruct e as [A [h v]]. unfold placed. cbn [fst snd]. intros [U1 U2] [Hn [Hh Hv]].
  assert (E1 := f_equal m00 U1). assert (E2 := f_equal m01 U1). assert (E3 := f_equal m10 U1). assert (E4 := f_equal m11 U1).
  assert (F1 := f_equal m00 U2). assert (F2 := f_equal m01 U2). assert (F3 := f_equal m10 U2). assert (F4 := f_equal m11 U2).
  cbn [mat2_mul mat2_adj mat2_id m00 m01 m10 m11] in *.
  assert (Hvh : (v =? h) = false) by (apply Nat.eqb_neq; lia). assert (Hhv : (h =? v) = false) by (apply Nat.eqb_neq; lia).
  assert (Z : Cconj (RtoC 0) = RtoC 0) by (apply C_eq; cbn; ring).
  assert (O : Cconj (RtoC 1) = RtoC 1) by (apply C_eq; cbn; ring).
  intros i j Hi Hj. unfold optic_transfer. cbn [fst snd]. split.
  - destruct (Nat.eq_dec i h) as [->|Hih]; [|destruct (Nat.eq_dec i v) as [->|Hiv]].
    + rewrite (Csum_two' n h v) by (try assumption; intros k _ K1 K2; rewrite (proj2 (Nat.eqb_neq k h) K1), (proj2 (Nat.eqb_neq k v) K2), (proj2 (Nat.eqb_neq h k) (not_eq_sym K1)); ring).
      rewrite !Nat.eqb_refl, Hvh. destruct (Nat.eqb_spec j h) as [->|Hjh]; [|destruct (Nat.eqb_spec j v) as [->|Hjv]].
      * rewrite Nat.eqb_refl. rewrite <- F1. ring.
      * rewrite Hhv. rewrite <- F3. ring.
      * rewrite (proj2 (Nat.eqb_neq h j) (not_eq_sym Hjh)), Z. ring.
    + rewrite (Csum_two' n h v) by (try assumption; intros k _ K1 K2; rewrite (proj2 (Nat.eqb_neq k h) K1), (proj2 (Nat.eqb_neq k v) K2), (proj2 (Nat.eqb_neq v k) (not_eq_sym K2)); ring).
      rewrite !Nat.eqb_refl, Hvh. destruct (Nat.eqb_spec j h) as [->|Hjh]; [|destruct (Nat.eqb_spec j v) as [->|Hjv]].
      * rewrite Hvh. rewrite <- F2. ring.
      * rewrite Nat.eqb_refl. rewrite <- F4. ring.
      * rewrite (proj2 (Nat.eqb_neq v j) (not_eq_sym Hjv)), Z. ring.
    + rewrite (Csum_single _ i); [|apply seq_NoDup|apply in_seq; lia|].
      * rewrite (proj2 (Nat.eqb_neq i h) Hih), (proj2 (Nat.eqb_neq i v) Hiv), Nat.eqb_refl. rewrite (Nat.eqb_sym j i). destruct (i =? j); rewrite ?O, ?Z; ring.
      * intros k _ Hk. rewrite (proj2 (Nat.eqb_neq i h) Hih), (proj2 (Nat.eqb_neq i v) Hiv), (proj2 (Nat.eqb_neq i k) (not_eq_sym Hk)). destruct (k =? h), (k =? v); ring.
  - destruct (Nat.eq_dec i h) as [->|Hih]; [|destruct (Nat.eq_dec i v) as [->|Hiv]].
    + rewrite Nat.eqb_refl. rewrite (Csum_two' n h v) by (try assumption; intros k _ K1 K2; rewrite (proj2 (Nat.eqb_neq k h) K1), (proj2 (Nat.eqb_neq k v) K2), Z; ring).
      rewrite !Nat.eqb_refl, Hvh. rewrite (Nat.eqb_sym h j). destruct (Nat.eqb_spec j h) as [->|Hjh]; [|destruct (Nat.eqb_spec j v) as [->|Hjv]].
      * rewrite <- E1. ring.
      * rewrite <- E3. ring.
      * rewrite (proj2 (Nat.eqb_neq v j) (not_eq_sym Hjv)). ring.
    + rewrite Hvh, Nat.eqb_refl. rewrite (Csum_two' n h v) by (try assumption; intros k _ K1 K2; rewrite (proj2 (Nat.eqb_neq k h) K1), (proj2 (Nat.eqb_neq k v) K2), Z; ring).
      rewrite !Nat.eqb_refl, Hvh. rewrite (Nat.eqb_sym v j). destruct (Nat.eqb_spec j h) as [->|Hjh]; [|destruct (Nat.eqb_spec j v) as [->|Hjv]].
      * rewrite Hhv. rewrite <- E2. ring.
      * rewrite <- E4. ring.
      * rewrite (proj2 (Nat.eqb_neq h j) (not_eq_sym Hjh)). ring.
    + rewrite (proj2 (Nat.eqb_neq i h) Hih), (proj2 (Nat.eqb_neq i v) Hiv). rewrite (Csum_single _ i); [|apply seq_NoDup|apply in_seq; lia|].
      * rewrite (proj2 (Nat.eqb_neq i h) Hih), (proj2 (Nat.eqb_neq i v) Hiv), Nat.eqb_refl, O. destruct (Nat.eqb_spec j h) as [->|Hjh]; [rewrite (proj2 (Nat.eqb_neq i h) Hih); ring|]. destruct (Nat.eqb_spec j v) as [->|Hjv]; [rewrite (proj2 (Nat.eqb_neq i v) Hiv); ring|ring].
      * intros k _ Hk. rewrite (proj2 (Nat.eqb_neq k i) Hk), Z. ring.
Qed.
Lemma transfer_unitary n es : Forall (fun e => unitary2 (fst e) /\ placed n e) es -> unitary_mat n (transfer n es).
Proof.
  induction 1 as [|e es [Hu Hp] _ IH].
  - assert (Z : Cconj (RtoC 0) = RtoC 0) by (apply C_eq; cbn; ring). assert (O : Cconj (RtoC 1) = RtoC 1) by (apply C_eq; cbn; ring).
    intros i j Hi Hj. cbn [transfer]. split.
    + rewrite (Csum_single _ i); [|apply seq_NoDup|apply in_seq; lia|].
      * rewrite Nat.eqb_refl, (Nat.eqb_sym j i). destruct (i =? j); rewrite ?O, ?Z; ring.
      * intros k _ Hk. rewrite (proj2 (Nat.eqb_neq i k) (not_eq_sym Hk)). ring.
    + rewrite (Csum_single _ i); [|apply seq_NoDup|apply in_seq; lia|].
      * rewrite Nat.eqb_refl, O. destruct (i =? j); ring.
      * intros k _ Hk. rewrite (proj2 (Nat.eqb_neq k i) Hk), Z. ring.
  - change (transfer n (e :: es)) with (mat_mul n (transfer n es) (optic_transfer e)). apply unitary_mul; [exact IH|]. now apply optic_unitary.
Qed.
Lemma optics_transfer_unitary D es : Forall (optic_ok D) es -> unitary_mat (dN D) (transfer (dN D) es).
Proof. intro H. apply transfer_unitary. revert H. apply Forall_impl. intros e (H0 & H1 & H2 & H3 & _). now repeat split; try apply H0. Qed.
Lemma circuit_permanent D es M from to : 1 <= dL D -> Forall (optic_ok D) es -> circuit_matrix D (optic_gates es) = Some M ->
  length from = dN D -> length to = dN D -> NamesSpec.photons from = NamesSpec.photons to -> NamesSpec.photons to < dL D ->
  M (index_of_values D to) (index_of_values D from) = (permanent (transfer (dN D) es) from to / RtoC (sqrt (INR (factorials from)) * sqrt (INR (factorials to))))%C.
Proof.
  intros HL He EM Lf Lt Hp Hb.
  assert (HN : 2 <= dN D). { destruct He as [|e es (_ & H1 & H2 & H3 & _) _]; [discriminate EM|lia]. }
  destruct (optics_place D es He HN) as (nds & Ep & HF). assert (Vf : valid D from) by (apply valid_bound; [exact Lf|lia]). assert (Vt : valid D to) by (apply valid_bound; [exact Lt|lia]).
  assert (Em : M = nodes_matrix D nds). { rewrite circuit_matrix_product, Ep in EM by exact HL. destruct nds as [|nd r]; [discriminate|]. now injection EM as <-. }
  set (x := fun j => if j =? index_of_values D from then RtoC 1 else RtoC 0).
  assert (E1 : mat_vec (size_of_basis D) M x (index_of_values D to) = M (index_of_values D to) (index_of_values D from)).
  { unfold mat_vec. rewrite (Csum_single _ (index_of_values D from)).
    - unfold x. rewrite Nat.eqb_refl. ring.
    - apply seq_NoDup.
    - apply in_seq. pose proof (index_of_values_bound D from Vf). lia.
    - intros k _ Hk. unfold x. rewrite (proj2 (Nat.eqb_neq k _) Hk). ring. }
  rewrite <- E1, Em, nodes_matrix_act by (now apply index_of_values_bound). rewrite (optics_act D es nds x to HL He HF Lt Hb).
  rewrite <- Lt. rewrite <- ideal_ket by (first [congruence|exact Hp|rewrite Lt; now apply optic_placed]). apply ideal_local; [rewrite Lt; now apply optic_placed|].
  intros ws Lw Pw. unfold x, ket. destruct (leqb ws from) eqn:E.
  - apply leqb_spec in E. subst. now rewrite Nat.eqb_refl.
  - rewrite (proj2 (Nat.eqb_neq _ _)); [reflexivity|]. intro X. apply index_of_values_inj in X; [subst; now rewrite leqb_same in E|exact HL|apply valid_bound; [congruence|lia]|exact Vf].
Qed.
