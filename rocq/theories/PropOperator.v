(** Property theorems C41: operators given by Hamiltonians. *)
From Coq Require Import Reals List Arith Lia Lra Bool ZArith Permutation.
From Coquelicot Require Import Complex.
From Verif Require Import Prelude NamesModel NamesSpec NamesProofs FockModel FockSpec FockProofs GateProofs StateModel StateSpec StateProofs
  ApplyProofs CollectionModel CollectionSpec EvalModel EvalSpec EvalProofs WfProofs PropState PropEval ReshapeProofs OperatorModel OperatorSpec.
Import ListNotations.

Lemma contained_spec K vs : contained K vs = true <-> valid K vs.
Proof.
  unfold contained, valid. rewrite andb_true_iff, Nat.eqb_eq, forallb_forall, Forall_forall. split; intros [H1 H2]; (split; [exact H1|]); intros v Hv; apply Nat.ltb_lt; now apply H2.
Qed.

(** ** Ladder operators *)
Definition delta (a : C) (from : values) : wave := fun vs => if list_eq_dec Nat.eq_dec vs from then a else RtoC 0.

Lemma string_action_ext w : forall psi phi, (forall vs, psi vs = phi vs) -> forall vs, string_action w psi vs = string_action w phi vs.
Proof.
  induction w as [|[c [| |]] r IH]; intros psi phi H vs; cbn [string_action]; auto; apply IH; intros us; unfold creation, annihilation; now rewrite H.
Qed.
Lemma string_action_len k w : forall psi phi, (forall vs, length vs = k -> psi vs = phi vs) -> forall vs, length vs = k -> string_action w psi vs = string_action w phi vs.
Proof.
  induction w as [|[c [| |]] r IH]; intros psi phi H vs Hl; cbn [string_action]; auto; apply IH; auto; intros us Hu; unfold creation, annihilation; rewrite H; auto; now rewrite set_nth_length.
Qed.
Lemma string_action_sum {A} (l : list A) w : forall (f : A -> wave) vs,
  string_action w (fun vs => Csum l (fun x => f x vs)) vs = Csum l (fun x => string_action w (f x) vs).
Proof.
  induction w as [|[c [| |]] r IH]; intros f vs; cbn [string_action]; [reflexivity| | |apply IH].
  - rewrite <- (IH (fun x => creation c (f x))). apply string_action_ext. intros us. unfold creation. destruct (nth c us 0 =? 0).
    + symmetry. apply Csum_zero. auto.
    + symmetry. apply Csum_scal_l.
  - rewrite <- (IH (fun x => annihilation c (f x))). apply string_action_ext. intros us. unfold annihilation. symmetry. apply Csum_scal_l.
Qed.

Lemma set_nth_same (vs : values) c x : c < length vs -> nth c vs 0 = x -> set_nth vs c x = vs.
Proof.
  intros Hc E. apply (nth_ext _ _ 0 0); [apply set_nth_length|]. intros k Hk. rewrite nth_set_nth by auto. destruct (Nat.eqb_spec k c) as [->|]; auto.
Qed.
Lemma set_nth_twice (vs : values) c x y : set_nth (set_nth vs c x) c y = set_nth vs c y.
Proof. revert c. induction vs as [|v vs IH]; intros [|c]; cbn; auto. now rewrite IH. Qed.
Lemma set_nth_flip (us vs : values) c x : c < length us -> c < length vs -> (set_nth us c x = vs <-> nth c vs 0 = x /\ us = set_nth vs c (nth c us 0)).
Proof.
  intros Hu Hv. split.
  - intros <-. rewrite nth_set_nth, Nat.eqb_refl by auto. split; [reflexivity|]. rewrite set_nth_twice. symmetry. now apply set_nth_same.
  - intros [E1 E2]. rewrite E2, set_nth_twice. now apply set_nth_same.
Qed.

Lemma creation_delta a from c vs : c < length from -> length vs = length from ->
  creation c (delta a from) vs = delta (a * RtoC (sqrt (INR (nth c from 0 + 1)%nat)))%C (set_nth from c (nth c from 0 + 1)) vs.
Proof.
  intros Hc Hl. unfold creation, delta. destruct (list_eq_dec Nat.eq_dec vs (set_nth from c (nth c from 0 + 1))) as [->|Hne].
  - rewrite nth_set_nth, Nat.eqb_refl by auto. replace (nth c from 0 + 1 =? 0) with false by (symmetry; apply Nat.eqb_neq; lia).
    rewrite set_nth_twice. replace (nth c from 0 + 1 - 1) with (nth c from 0) by lia. rewrite (set_nth_same from c) by auto.
    destruct (list_eq_dec Nat.eq_dec from from); [apply Cmult_comm|contradiction].
  - destruct (Nat.eqb_spec (nth c vs 0) 0) as [|H0]; [reflexivity|]. destruct (list_eq_dec Nat.eq_dec (set_nth vs c (nth c vs 0 - 1)) from) as [E|]; [|apply Cmult_0_r].
    exfalso. apply Hne. apply set_nth_flip in E; [|lia|lia]. destruct E as [E1 E2]. rewrite E2 at 1. f_equal. lia.
Qed.
Lemma annihilation_delta a from c vs : c < length from -> length vs = length from ->
  annihilation c (delta a from) vs = if nth c from 0 =? 0 then RtoC 0 else delta (a * RtoC (sqrt (INR (nth c from 0))))%C (set_nth from c (nth c from 0 - 1)) vs.
Proof.
  intros Hc Hl. unfold annihilation, delta. destruct (list_eq_dec Nat.eq_dec (set_nth vs c (nth c vs 0 + 1)) from) as [E|E].
  - pose proof E as E'. apply set_nth_flip in E'; [|lia|lia]. destruct E' as [E1 E2].
    destruct (Nat.eqb_spec (nth c from 0) 0) as [H0|H0]; [lia|]. destruct (list_eq_dec _ _ _) as [_|Hne].
    + rewrite E1. apply Cmult_comm.
    + exfalso. apply Hne. rewrite E2 at 1. f_equal. lia.
  - rewrite Cmult_0_r. destruct (Nat.eqb_spec (nth c from 0) 0) as [H0|H0]; [reflexivity|]. destruct (list_eq_dec _ _ _) as [E'|]; [|reflexivity].
    exfalso. apply E. subst vs. rewrite nth_set_nth, Nat.eqb_refl, set_nth_twice by auto. apply set_nth_same; auto. lia.
Qed.

Lemma run_word_delta k w : word_ok k w = true -> forall from a vs, length from = k -> length vs = k ->
  string_action w (delta a from) vs = match run_word w from a with Some (to, b) => delta b to vs | None => RtoC 0 end.
Proof.
  induction w as [|[c cmd] r IH]; intros Hok from a vs Hf Hv; [reflexivity|]. cbn [word_ok forallb] in Hok. apply andb_prop in Hok. destruct Hok as [Hc Hok].
  fold (word_ok k r) in Hok. cbn [fst snd] in Hc. destruct cmd; cbn [string_action run_word].
  - apply Nat.ltb_lt in Hc. cbv zeta. rewrite <- IH; auto; [|now rewrite set_nth_length].
    apply (string_action_len k); auto. intros us Hu. apply creation_delta; congruence.
  - apply Nat.ltb_lt in Hc. destruct (Nat.eqb_spec (nth c from 0) 0) as [H0|H0].
    + rewrite (string_action_len k r _ (fun vs => Csum (@nil nat) (fun _ => RtoC 0))) by
        (auto; intros us Hu; rewrite annihilation_delta by congruence; rewrite H0; reflexivity).
      now rewrite (string_action_sum (@nil nat) r (fun _ _ => RtoC 0)).
    + rewrite <- IH; auto; [|now rewrite set_nth_length]. apply (string_action_len k); auto. intros us Hu. rewrite annihilation_delta by congruence.
      apply Nat.eqb_neq in H0. now rewrite H0.
  - now apply IH.
Qed.
Lemma run_word_coef w : forall vs a b, run_word w vs (a * b)%C = match run_word w vs b with Some (to, c) => Some (to, (a * c)%C) | None => None end.
Proof.
  induction w as [|[c cmd] r IH]; intros vs a b; [reflexivity|]. destruct cmd; cbn [run_word]; cbv zeta; [| |apply IH].
  - rewrite <- Cmult_assoc. apply IH.
  - destruct (nth c vs 0 =? 0); [reflexivity|]. rewrite <- Cmult_assoc. apply IH.
Qed.
Lemma run_word_length w : forall vs a to b, run_word w vs a = Some (to, b) -> length to = length vs.
Proof.
  induction w as [|[c cmd] r IH]; intros vs a to b E; cbn [run_word] in E.
  - now injection E as <- _.
  - destruct cmd; cbv zeta in E.
    + apply IH in E. now rewrite set_nth_length in E.
    + destruct (nth c vs 0 =? 0); [discriminate|]. apply IH in E. now rewrite set_nth_length in E.
    + now apply IH in E.
Qed.

(** ** Matrices acting on wave functions *)
Definition supported (K : dims) (psi : wave) : Prop := forall vs, ~ valid K vs -> psi vs = RtoC 0.

Lemma supported_sum K psi vs : 1 <= dL K -> supported K psi ->
  psi vs = Csum (seq 0 (size_of_basis K)) (fun i => delta (psi (values_from_index K i)) (values_from_index K i) vs).
Proof.
  intros HL HS. destruct (contained K vs) eqn:E.
  - apply contained_spec in E. rewrite (Csum_single _ (index_of_values K vs)).
    + unfold delta. rewrite values_index_roundtrip by auto. destruct (list_eq_dec Nat.eq_dec vs vs); [reflexivity|contradiction].
    + apply seq_NoDup.
    + apply in_seq. pose proof (index_of_values_bound K vs E). lia.
    + intros i Hi Hne. apply in_seq in Hi. unfold delta. destruct (list_eq_dec _ _ _) as [->|]; [|reflexivity]. exfalso. apply Hne. now rewrite index_values_roundtrip by (auto; lia).
  - assert (Hn : ~ valid K vs) by (intros H; apply contained_spec in H; congruence). rewrite HS by auto. symmetry. apply Csum_zero.
    intros i Hi. unfold delta. destruct (list_eq_dec _ _ _) as [->|]; [|reflexivity]. exfalso. apply Hn. now apply values_from_index_valid.
Qed.
Lemma matrix_action_supported K T psi : supported K (matrix_action K T psi).
Proof. intros vs H. unfold matrix_action. destruct (contained K vs) eqn:E; [|reflexivity]. apply contained_spec in E. contradiction. Qed.
Lemma matrix_action_ext K T T' psi phi : 1 <= dL K -> (forall i j, i < size_of_basis K -> j < size_of_basis K -> T i j = T' i j) ->
  (forall vs, valid K vs -> psi vs = phi vs) -> forall vs, matrix_action K T psi vs = matrix_action K T' phi vs.
Proof.
  intros HL HT HP vs. unfold matrix_action. destruct (contained K vs) eqn:E; [|reflexivity]. apply contained_spec in E. apply Csum_ext.
  intros i Hi. apply in_seq in Hi. rewrite HT by (try lia; now apply index_of_values_bound). now rewrite HP by now apply values_from_index_valid.
Qed.
Lemma matrix_action_mul K A B psi vs : 1 <= dL K ->
  matrix_action K (mat_mul (size_of_basis K) A B) psi vs = matrix_action K B (matrix_action K A psi) vs.
Proof.
  intros HL. unfold matrix_action. destruct (contained K vs) eqn:E; [|reflexivity]. unfold mat_mul.
  transitivity (Csum (seq 0 (size_of_basis K)) (fun i => Csum (seq 0 (size_of_basis K)) (fun k => psi (values_from_index K i) * A i k * B k (index_of_values K vs))%C)).
  - apply Csum_ext. intros i _. rewrite <- Csum_scal_l. apply Csum_ext. intros k _. apply Cmult_assoc.
  - rewrite Csum_swap. apply Csum_ext. intros k Hk. apply in_seq in Hk.
    replace (contained K (values_from_index K k)) with true by (symmetry; apply contained_spec; now apply values_from_index_valid).
    rewrite index_values_roundtrip by (auto; lia). now rewrite <- Csum_scal_r.
Qed.
Lemma matrix_action_id K psi vs : 1 <= dL K -> supported K psi -> matrix_action K (fun i j => if i =? j then RtoC 1 else RtoC 0) psi vs = psi vs.
Proof.
  intros HL HS. unfold matrix_action. destruct (contained K vs) eqn:E.
  - apply contained_spec in E. rewrite (Csum_single _ (index_of_values K vs)).
    + now rewrite Nat.eqb_refl, values_index_roundtrip, Cmult_1_r by auto.
    + apply seq_NoDup.
    + apply in_seq. pose proof (index_of_values_bound K vs E). lia.
    + intros i _ Hne. apply Nat.eqb_neq in Hne. rewrite Hne. apply Cmult_0_r.
  - symmetry. apply HS. intros H. apply contained_spec in H. congruence.
Qed.

Lemma hamiltonian_matrix L chs ops psi : let K := limited L chs in 1 <= L ->
  forallb (fun op => word_ok (number_of_channels chs) (combine chs (fst op))) ops = true -> supported K psi ->
  forall vs, hamiltonian_action K chs ops psi vs = matrix_action K (limited_matrix L chs ops) psi vs.
Proof.
  intros K HL Hok HS vs. unfold hamiltonian_action, restricted, matrix_action. destruct (contained K vs) eqn:E; [|reflexivity]. apply contained_spec in E.
  rewrite forallb_forall in Hok. unfold limited_matrix. cbv zeta. fold K.
  rewrite (Csum_ext (seq 0 (size_of_basis K)) _ (fun i => Csum ops (fun op => psi (values_from_index K i) *
     match run_word (combine chs (fst op)) (values_from_index K i) (snd op) with
     | None => RtoC 0
     | Some (us, coef) => if forallb (fun v => v <? L) us && (index_of_values K us =? index_of_values K vs) then coef else RtoC 0
     end)%C)) by (intros i _; now rewrite <- Csum_scal_l).
  rewrite Csum_swap. apply Csum_ext. intros op Hop.
  rewrite (string_action_ext _ psi (fun vs => Csum (seq 0 (size_of_basis K)) (fun i => delta (psi (values_from_index K i)) (values_from_index K i) vs)))
    by (intros us; now apply supported_sum).
  rewrite string_action_sum, <- Csum_scal_l. apply Csum_ext. intros i Hi. apply in_seq in Hi.
  pose proof (values_from_index_valid K i HL) as Vi.
  rewrite (run_word_delta (number_of_channels chs)); [|now apply Hok|exact (proj1 Vi)|exact (proj1 E)].
  replace (run_word (combine chs (fst op)) (values_from_index K i) (psi (values_from_index K i)))
    with (run_word (combine chs (fst op)) (values_from_index K i) (psi (values_from_index K i) * RtoC 1)%C) by now rewrite Cmult_1_r.
  replace (run_word (combine chs (fst op)) (values_from_index K i) (snd op))
    with (run_word (combine chs (fst op)) (values_from_index K i) (snd op * RtoC 1)%C) by now rewrite Cmult_1_r.
  rewrite !run_word_coef. destruct (run_word _ _ (RtoC 1)) as [[us b]|] eqn:Ew; [|now rewrite !Cmult_0_r].
  apply run_word_length in Ew. rewrite (proj1 Vi) in Ew. unfold delta.
  replace (forallb (fun v => v <? L) us && (index_of_values K us =? index_of_values K vs)) with (if list_eq_dec Nat.eq_dec vs us then true else false).
  - destruct (list_eq_dec Nat.eq_dec vs us); [ring|now rewrite !Cmult_0_r].
  - symmetry. destruct (list_eq_dec Nat.eq_dec vs us) as [<-|Hne].
    + rewrite Nat.eqb_refl, andb_true_r. apply forallb_forall. intros v Hv. apply Nat.ltb_lt. destruct E as [_ HF]. rewrite Forall_forall in HF. now apply HF.
    + destruct (forallb _ us) eqn:Hf; [|reflexivity]. cbn [andb]. apply Nat.eqb_neq. intros Ei. apply Hne. symmetry. apply (index_of_values_inj K); auto.
      split; [exact Ew|]. rewrite forallb_forall in Hf. apply Forall_forall. intros v Hv. apply Nat.ltb_lt. now apply Hf.
Qed.

Lemma hamiltonian_supported K chs ops psi : supported K (hamiltonian_action K chs ops psi).
Proof. intros vs H. unfold hamiltonian_action, restricted. destruct (contained K vs) eqn:E; [|reflexivity]. apply contained_spec in E. contradiction. Qed.

Lemma power_action L chs ops psi n : let K := limited L chs in 1 <= L ->
  forallb (fun op => word_ok (number_of_channels chs) (combine chs (fst op))) ops = true -> supported K psi ->
  supported K (Nat.iter n (hamiltonian_action K chs ops) psi) /\
  forall vs, matrix_action K (mat_pow (size_of_basis K) (limited_matrix L chs ops) n) psi vs = Nat.iter n (hamiltonian_action K chs ops) psi vs.
Proof.
  intros K HL Hok HS. induction n as [|n [IS IH]].
  - split; [exact HS|]. intros vs. now apply matrix_action_id.
  - split; [apply hamiltonian_supported|]. intros vs. cbn [mat_pow]. rewrite matrix_action_mul by exact HL.
    cbn [Nat.iter]. change (Nat.iter (S n) ?f psi) with (f (Nat.iter n f psi)).
    etransitivity; [|symmetry; exact (hamiltonian_matrix L chs ops _ HL Hok IS vs)]. fold K. apply matrix_action_ext; auto.
Qed.

Lemma exponential_sum d p M i j : 1 <= p -> exponential d p M i j = Csum (seq 0 p) (fun n => RtoC (/ INR (fact n)) * mat_pow d M n i j)%C.
Proof.
  intros Hp. destruct p as [|p]; [lia|]. unfold exponential. cbn [seq Nat.sub]. rewrite Nat.sub_0_r. rewrite Csum_cons.
  replace (RtoC (/ INR (fact 0)) * mat_pow d M 0 i j)%C with (if i =? j then RtoC 1 else RtoC 0).
  2:{ cbn [fact mat_pow INR]. rewrite Rinv_1. now rewrite Cmult_1_l. }
  generalize (if i =? j then RtoC 1 else RtoC 0) as a. generalize (seq 1 p) as l. induction l as [|x l IH]; intros a; cbn [fold_left].
  - rewrite Csum_nil. now rewrite Cplus_0_r.
  - rewrite IH, Csum_cons. now rewrite Cplus_assoc.
Qed.
Lemma series_matrix L chs p ops psi : let K := limited L chs in 1 <= L -> 1 <= p ->
  forallb (fun op => word_ok (number_of_channels chs) (combine chs (fst op))) ops = true -> supported K psi ->
  supported K (series_action K chs p ops psi) /\
  forall vs, matrix_action K (exponential (size_of_basis K) p (limited_matrix L chs ops)) psi vs = series_action K chs p ops psi vs.
Proof.
  intros K HL Hp Hok HS. assert (HP := fun n => power_action L chs ops psi n HL Hok HS). fold K in HP. split.
  - intros vs Hv. unfold series_action. apply Csum_zero. intros n _. destruct (HP n) as [H _]. now rewrite (H vs Hv), Cmult_0_r.
  - intros vs. rewrite (matrix_action_ext K _ (fun i j => Csum (seq 0 p) (fun n => RtoC (/ INR (fact n)) * mat_pow (size_of_basis K) (limited_matrix L chs ops) n i j)%C) psi psi);
      auto; [|intros; now apply exponential_sum].
    unfold series_action.
    transitivity (Csum (seq 0 p) (fun n => RtoC (/ INR (fact n)) * matrix_action K (mat_pow (size_of_basis K) (limited_matrix L chs ops) n) psi vs)%C).
    2:{ apply Csum_ext. intros n _. now rewrite (proj2 (HP n)). }
    unfold matrix_action. destruct (contained K vs); [|symmetry; apply Csum_zero; intros; apply Cmult_0_r].
    transitivity (Csum (seq 0 (size_of_basis K)) (fun i => Csum (seq 0 p) (fun n => RtoC (/ INR (fact n)) *
      (psi (values_from_index K i) * mat_pow (size_of_basis K) (limited_matrix L chs ops) n i (index_of_values K vs)))%C)).
    + apply Csum_ext. intros i _. rewrite <- Csum_scal_l. apply Csum_ext. intros n _. ring.
    + rewrite Csum_swap. apply Csum_ext. intros n _. now rewrite Csum_scal_l.
Qed.

Lemma series_ext K chs p ops psi phi : (forall vs, psi vs = phi vs) -> forall vs, series_action K chs p ops psi vs = series_action K chs p ops phi vs.
Proof.
  intros H vs. unfold series_action. apply Csum_ext. intros n _. f_equal. revert vs. induction n as [|n IH]; intros vs; [apply H|].
  change (Nat.iter (S n) ?f ?x) with (f (Nat.iter n f x)). unfold hamiltonian_action at 1 3, restricted. destruct (contained K vs); [|reflexivity].
  apply Csum_ext. intros op _. f_equal. now apply string_action_ext.
Qed.

(** ** C41 *)

(** The transition matrix is the product of the truncated exponential series of the Hamiltonians:
    the LAST Hamiltonian of the list acts first. *)
Theorem C41_transition : forall L power hs T psi, let K := limited L (operator_channels hs) in
  1 <= L -> 1 <= power -> transition_matrix L power hs = Some T ->
  (forall vs, ~ valid K vs -> psi vs = RtoC 0) ->
  forall vs, matrix_action K T psi vs = in_order K (operator_channels hs) power (rev hs) psi vs.
Proof.
  intros L power hs T psi K HL Hp E HS. unfold transition_matrix in E. cbv zeta in E.
  assert (E' : (if forallb (fun h => forallb (fun op => word_ok (number_of_channels (operator_channels hs)) (combine (operator_channels hs) (fst op))) (h_operators h)) hs
    then Some (combine_matrices (size_of_basis K) (map (fun h => exponential (size_of_basis K) power (limited_matrix L (operator_channels hs) (h_operators h))) hs)) else None) = Some T).
  { unfold K. destruct (operator_channels hs); [discriminate|exact E]. }
  clear E. unfold K in *. clear K. generalize dependent (operator_channels hs). intros chs HS E.
  destruct (forallb _ hs) eqn:Hok; [|discriminate]. injection E as <-. set (K := limited L chs) in *. rewrite forallb_forall in Hok.
  assert (HH : Forall (fun h => forallb (fun op => word_ok (number_of_channels chs) (combine chs (fst op))) (h_operators h) = true) hs) by (apply Forall_forall; exact Hok).
  clear Hok. revert psi HS. induction hs as [|h hs IH] using rev_ind; intros psi HS vs.
  - cbn. now apply matrix_action_id.
  - apply Forall_app in HH. destruct HH as [HH Hh]. inversion Hh as [|x y Hx _]; subst.
    rewrite rev_app_distr. unfold in_order. cbn [rev app fold_left]. fold (in_order K chs power (rev hs)).
    unfold combine_matrices. rewrite map_app, fold_left_app. cbn [map fold_left]. rewrite matrix_action_mul by exact HL.
    fold (combine_matrices (size_of_basis K) (map (fun h => exponential (size_of_basis K) power (limited_matrix L chs (h_operators h))) hs)).
    destruct (series_matrix L chs power (h_operators h) psi HL Hp Hx HS) as [S1 S2]. fold K in S1, S2.
    etransitivity; [|exact (IH HH _ S1 vs)]. apply matrix_action_ext; auto.
Qed.

Lemma in_order_cons K chs p h l psi : in_order K chs p (h :: l) psi = in_order K chs p l (series_action K chs p (h_operators h) psi).
Proof. reflexivity. Qed.

(** A single Hamiltonian: exactly the truncated series. *)
Theorem C41_single : forall L power h T psi, let K := limited L (h_channels h) in
  1 <= L -> 1 <= power -> transition_matrix L power [h] = Some T ->
  (forall vs, ~ valid K vs -> psi vs = RtoC 0) ->
  forall vs, matrix_action K T psi vs = series_action K (h_channels h) power (h_operators h) psi vs.
Proof. intros L power h T psi K HL Hp E HS vs. exact (C41_transition L power [h] T psi HL Hp E HS vs). Qed.

(** The documented order (index 0 first) for Hamiltonians whose series commute. *)
Theorem C41_commuting_partial : forall L power hs T psi, let K := limited L (operator_channels hs) in
  1 <= L -> 1 <= power -> transition_matrix L power hs = Some T ->
  (forall vs, ~ valid K vs -> psi vs = RtoC 0) ->
  (forall h1 h2 phi, In h1 hs -> In h2 hs -> (forall vs, ~ valid K vs -> phi vs = RtoC 0) ->
     forall vs, in_order K (operator_channels hs) power [h1; h2] phi vs = in_order K (operator_channels hs) power [h2; h1] phi vs) ->
  forall vs, matrix_action K T psi vs = in_order K (operator_channels hs) power hs psi vs.
Proof.
  intros L power hs T psi K HL Hp E HS HC vs. unfold K. rewrite (C41_transition L power hs T psi HL Hp E HS). fold K.
  assert (E' : forallb (fun h => forallb (fun op => word_ok (number_of_channels (operator_channels hs)) (combine (operator_channels hs) (fst op))) (h_operators h)) hs = true).
  { unfold transition_matrix in E. cbv zeta in E. destruct (operator_channels hs); [discriminate|]. destruct (forallb _ hs); [reflexivity|discriminate]. }
  rewrite forallb_forall in E'. clear E.
  assert (HSer : forall h, In h hs -> forall phi, supported K phi -> supported K (series_action K (operator_channels hs) power (h_operators h) phi)).
  { intros h Hh phi Hphi. exact (proj1 (series_matrix L (operator_channels hs) power (h_operators h) phi HL Hp (E' h Hh) Hphi)). }
  clear E'. unfold K in *. clear K. generalize dependent (operator_channels hs). intros chs HS HC HSer. set (K0 := limited L chs) in *.
  assert (HX : forall l phi phi', (forall vs, phi vs = phi' vs) -> forall vs, in_order K0 chs power l phi vs = in_order K0 chs power l phi' vs).
  { intros l. induction l as [|x l IH]; intros phi phi' H us; [apply H|]. rewrite !in_order_cons. apply IH.
    intros ws. now apply series_ext. }
  assert (HM : forall l h, incl l hs -> In h hs -> forall phi, supported K0 phi -> forall vs, in_order K0 chs power (l ++ [h]) phi vs = in_order K0 chs power (h :: l) phi vs).
  { intros l. induction l as [|x l IH]; intros h Hl Hh phi Hphi us; [reflexivity|]. cbn [app]. rewrite !in_order_cons. rewrite IH; auto; [|intros y Hy; apply Hl; now right|apply HSer; auto; apply Hl; now left].
    rewrite in_order_cons. apply HX. intros ws. apply (HC x h phi); auto. apply Hl. now left. }
  assert (HR : forall l, incl l hs -> forall phi, supported K0 phi -> forall vs, in_order K0 chs power (rev l) phi vs = in_order K0 chs power l phi vs).
  { intros l. induction l as [|x l IH]; intros Hl phi Hphi us; [reflexivity|]. cbn [rev]. rewrite HM; auto.
    - rewrite !in_order_cons. apply IH; [intros y Hy; apply Hl; now right|].
      apply HSer; auto. apply Hl. now left.
    - intros y Hy. apply in_rev in Hy. apply Hl. now right.
    - apply Hl. now left. }
  apply HR; auto. apply incl_refl.
Qed.

(** The operator channels of all Hamiltonians but the first are ignored. *)
Theorem C41_later_channels_refuted : forall L power h hs (chs : nat -> list nat),
  transition_matrix L power (h :: map (fun kh => Ham (h_operators (snd kh)) (chs (fst kh))) (combine (seq 0 (length hs)) hs)) =
  transition_matrix L power (h :: hs).
Proof.
  intros L power h hs chs. unfold transition_matrix. cbv zeta. cbn [operator_channels].
  assert (HM : forall B (f : list (list command * C) -> B), map (fun h => f (h_operators h)) (map (fun kh : nat * hamiltonian => Ham (h_operators (snd kh)) (chs (fst kh))) (combine (seq 0 (length hs)) hs))
    = map (fun h => f (h_operators h)) hs).
  { intros B f. rewrite map_map. cbn [h_operators]. generalize 0. induction hs as [|x hs IH]; intros s; [reflexivity|]. cbn [length seq combine map snd]. now rewrite IH. }
  destruct (h_channels h) as [|c0 cr] eqn:Ec; [reflexivity|]. rewrite <- Ec. clear c0 cr Ec. cbn [map forallb].
  assert (HF : forall (f : list (list command * C) -> bool) l, forallb (fun h => f (h_operators h)) l = forallb (fun b => b) (map (fun h => f (h_operators h)) l)).
  { intros f l. induction l as [|x l IH]; [reflexivity|]. cbn. now rewrite IH. }
  rewrite !(HF (fun ops => forallb (fun op => word_ok (number_of_channels (h_channels h)) (combine (h_channels h) (fst op))) ops)).
  rewrite (HM _ (fun ops => forallb (fun op => word_ok (number_of_channels (h_channels h)) (combine (h_channels h) (fst op))) ops)).
  rewrite (HM _ (fun ops => exponential (size_of_basis (limited L (h_channels h))) power (limited_matrix L (h_channels h) ops))). reflexivity.
Qed.

(** "Maximum power in the Taylor expansion": the highest power is one less than the argument; with
    power 1 the operator is the identity. *)
Theorem C41_maximum_power_refuted : forall L hs T psi, let K := limited L (operator_channels hs) in
  1 <= L -> transition_matrix L 1 hs = Some T -> (forall vs, ~ valid K vs -> psi vs = RtoC 0) ->
  forall vs, matrix_action K T psi vs = psi vs.
Proof.
  intros L hs T psi K HL E HS vs. unfold K. rewrite (C41_transition L 1 hs T psi HL (le_n 1) E HS). fold K.
  assert (HI : forall l phi, (forall us, phi us = psi us) -> in_order K (operator_channels hs) 1 l phi vs = psi vs).
  { intros l. induction l as [|x l IH]; intros phi H; [apply H|]. rewrite in_order_cons. apply IH. intros us. unfold series_action. cbn [seq]. rewrite Csum_cons, Csum_nil.
    cbn [fact INR Nat.iter]. rewrite Rinv_1, Cmult_1_l, Cplus_0_r. apply H. }
  now apply HI.
Qed.

(** The documented order fails: [exp(a^dagger), exp(a)] on the vacuum. *)
Definition up_down : list hamiltonian := [Ham [([Plus], RtoC 1)] [0]; Ham [([Minus], RtoC 1)] [0]].
Lemma mat_mul_ext2 d A A' B i j : (forall i j, i < d -> j < d -> A i j = A' i j) -> i < d -> j < d -> mat_mul d A B i j = mat_mul d A' B i j.
Proof. intros H Hi Hj. unfold mat_mul. apply Csum_ext. intros k Hk. apply in_seq in Hk. now rewrite H by lia. Qed.
Lemma nilpotent_exponential p M : 2 <= p -> (forall i j, i < 2 -> j < 2 -> mat_mul 2 M M i j = RtoC 0) ->
  forall i j, i < 2 -> j < 2 -> exponential 2 p M i j = ((if i =? j then RtoC 1 else RtoC 0) + M i j)%C.
Proof.
  intros Hp H0 i j Hi Hj. rewrite exponential_sum by lia.
  assert (Hid : forall A i j, j < 2 -> i < 2 -> mat_mul 2 (mat_pow 2 A 0) A i j = A i j).
  { intros A a b Hb Ha. unfold mat_mul. cbn [mat_pow]. now rewrite Csum_delta. }
  assert (HZ : forall n, (forall i j, i < 2 -> j < 2 -> mat_pow 2 M (S (S n)) i j = RtoC 0)).
  { intros n. induction n as [|n IH]; intros a b Ha Hb.
    - cbn [mat_pow]. etransitivity; [|apply (H0 a b Ha Hb)]. apply (mat_mul_ext2 2); auto. intros x y Hx Hy. apply (Hid M); auto.
    - change (mat_pow 2 M (S (S (S n)))) with (mat_mul 2 (mat_pow 2 M (S (S n))) M). unfold mat_mul at 1. apply Csum_zero. intros k Hk. apply in_seq in Hk.
      rewrite IH by lia. apply Cmult_0_l. }
  destruct p as [|[|p]]; try lia. cbn [seq]. rewrite !Csum_cons, Csum_zero.
  - cbn [mat_pow fact INR Nat.mul Nat.add]. rewrite Rinv_1, !Cmult_1_l, Cplus_0_r. f_equal. apply (Hid M); auto.
  - intros n Hn. apply in_seq in Hn. destruct n as [|[|n]]; try lia. rewrite HZ by auto. apply Cmult_0_r.
Qed.
Theorem C41_order_refuted : forall power, 2 <= power -> exists L hs T psi vs, let K := limited L (operator_channels hs) in
  transition_matrix L power hs = Some T /\ (forall vs, ~ valid K vs -> psi vs = RtoC 0) /\
  matrix_action K T psi vs = RtoC 1 /\ in_order K (operator_channels hs) power hs psi vs = RtoC 2.
Proof.
  intros p Hp. set (K := Dims 2 1 true). set (psi := delta (RtoC 1) [0]).
  assert (HS : forall vs, ~ valid K vs -> psi vs = RtoC 0).
  { intros vs H. unfold psi, delta. destruct (list_eq_dec Nat.eq_dec vs [0]) as [->|]; [|reflexivity]. exfalso. apply H. split; [reflexivity|repeat constructor]. }
  set (A := limited_matrix 2 [0] [([Plus], RtoC 1)]). set (B := limited_matrix 2 [0] [([Minus], RtoC 1)]).
  assert (HA : forall i j, i < 2 -> j < 2 -> A i j = if (i =? 0) && (j =? 1) then RtoC 1 else RtoC 0).
  { intros i j Hi Hj. destruct i as [|[|]], j as [|[|]]; try lia; unfold A, limited_matrix; cbv zeta; rewrite Csum_cons, Csum_nil; cbn; rewrite ?Cplus_0_r; try reflexivity.
    rewrite sqrt_1. now rewrite Cmult_1_r. }
  assert (HB : forall i j, i < 2 -> j < 2 -> B i j = if (i =? 1) && (j =? 0) then RtoC 1 else RtoC 0).
  { intros i j Hi Hj. destruct i as [|[|]], j as [|[|]]; try lia; unfold B, limited_matrix; cbv zeta; rewrite Csum_cons, Csum_nil; cbn; rewrite ?Cplus_0_r; try reflexivity.
    rewrite sqrt_1. now rewrite Cmult_1_r. }
  assert (HA2 : forall i j, i < 2 -> j < 2 -> mat_mul 2 A A i j = RtoC 0).
  { intros i j Hi Hj. unfold mat_mul. apply Csum_zero. intros k Hk. apply in_seq in Hk. rewrite !HA by lia. destruct i as [|[|]], j as [|[|]], k as [|[|]]; try lia; cbn; ring. }
  assert (HB2 : forall i j, i < 2 -> j < 2 -> mat_mul 2 B B i j = RtoC 0).
  { intros i j Hi Hj. unfold mat_mul. apply Csum_zero. intros k Hk. apply in_seq in Hk. rewrite !HB by lia. destruct i as [|[|]], j as [|[|]], k as [|[|]]; try lia; cbn; ring. }
  assert (EA : forall i j, i < 2 -> j < 2 -> exponential 2 p A i j = ((if i =? j then RtoC 1 else RtoC 0) + A i j)%C) by (intros; now apply nilpotent_exponential).
  assert (EB : forall i j, i < 2 -> j < 2 -> exponential 2 p B i j = ((if i =? j then RtoC 1 else RtoC 0) + B i j)%C) by (intros; now apply nilpotent_exponential).
  set (T := combine_matrices 2 [exponential 2 p A; exponential 2 p B]). set (T' := combine_matrices 2 [exponential 2 p B; exponential 2 p A]).
  assert (ET : transition_matrix 2 p up_down = Some T) by reflexivity.
  assert (ET' : transition_matrix 2 p (rev up_down) = Some T') by reflexivity.
  assert (HV : forall M, matrix_action K M psi [0] = M 0 0).
  { intros M. unfold matrix_action. change (contained K [0]) with true. cbv iota. change (size_of_basis K) with 2. cbn [seq]. rewrite !Csum_cons, Csum_nil. cbn.
    unfold psi, delta. cbn. ring. }
  exists 2, up_down, T, psi, [0]. cbv zeta. split; [exact ET|]. split; [exact HS|]. split.
  - change (limited 2 (operator_channels up_down)) with K. rewrite HV. unfold T, combine_matrices. cbn [fold_left]. unfold mat_mul. cbn [seq]. rewrite !Csum_cons, !Csum_nil.
    rewrite !EA, !EB, !HA, !HB by lia. cbn. ring.
  - pose proof (C41_transition 2 p (rev up_down) T' psi) as H. cbv zeta in H. rewrite rev_involutive in H.
    change (operator_channels (rev up_down)) with [0] in H. change (operator_channels up_down) with [0]. rewrite <- H by (auto; lia).
    change (limited 2 [0]) with K. rewrite HV. unfold T', combine_matrices. cbn [fold_left]. unfold mat_mul. cbn [seq]. rewrite !Csum_cons, !Csum_nil.
    rewrite !EA, !EB, !HA, !HB by lia. apply injective_projections; cbn; ring.
Qed.

(** ** States *)
Lemma replace_values_length chs us : forall vs, length (replace_values chs us vs) = length vs.
Proof.
  unfold replace_values. generalize (combine chs us). intros l. induction l as [|p l IH]; intros vs; [reflexivity|]. cbn [fold_left]. rewrite IH. apply set_nth_length.
Qed.
Lemma replace_values_other chs us c : ~ In c chs -> forall vs, nth c (replace_values chs us vs) 0 = nth c vs 0.
Proof.
  revert us. induction chs as [|x chs IH]; intros us Hn vs; [reflexivity|]. destruct us as [|u us]; [reflexivity|]. unfold replace_values. cbn [combine fold_left fst snd].
  fold (replace_values chs us (set_nth vs x u)). rewrite IH by (intros H; apply Hn; now right). destruct (Nat.lt_ge_cases x (length vs)) as [Hx|Hx].
  - rewrite nth_set_nth by auto. destruct (Nat.eqb_spec c x) as [->|]; [|reflexivity]. exfalso. apply Hn. now left.
  - f_equal. clear - Hx. revert x Hx. induction vs as [|v vs IH]; intros [|x] Hx; cbn in *; auto; [lia|]. f_equal. apply IH. lia.
Qed.
Lemma selected_replace chs : NoDup chs -> forall us vs, length us = length chs -> Forall (fun c => c < length vs) chs -> selected chs (replace_values chs us vs) = us.
Proof.
  intros ND. induction ND as [|x chs Hx ND IH]; intros us vs Hl HF; destruct us as [|u us]; cbn [length] in Hl; try discriminate; [reflexivity|].
  inversion HF as [|y l Hxl HF' ]; subst. unfold replace_values. cbn [combine fold_left fst snd]. fold (replace_values chs us (set_nth vs x u)).
  unfold selected. cbn [map]. f_equal.
  - rewrite replace_values_other by auto. rewrite nth_set_nth by auto. now rewrite Nat.eqb_refl.
  - apply IH; [lia|]. now rewrite set_nth_length.
Qed.
Lemma replace_values_eq chs us vs to : NoDup chs -> length us = length chs -> Forall (fun c => c < length vs) chs -> length to = length vs ->
  (replace_values chs us vs = to <-> us = selected chs to /\ forall c, ~ In c chs -> nth c vs 0 = nth c to 0).
Proof.
  intros ND Hl HF Hto. split.
  - intros <-. split; [now rewrite selected_replace|]. intros c Hc. now rewrite replace_values_other.
  - intros [-> H]. apply (nth_ext _ _ 0 0); [now rewrite replace_values_length|]. intros c Hc. destruct (in_dec Nat.eq_dec c chs) as [Hin|Hn].
    + pose proof (selected_replace chs ND (selected chs to) vs Hl HF) as HS. unfold selected in HS at 1 3. apply (proj1 (map_ext_in_iff) HS c Hin).
    + rewrite replace_values_other by auto. now apply H.
Qed.
Lemma replace_values_valid D chs us vs : valid D vs -> Forall (fun v => v < dL D) us -> valid D (replace_values chs us vs).
Proof.
  intros V HF. split; [rewrite replace_values_length; apply V|]. destruct V as [_ HV]. unfold replace_values. revert us HF vs HV.
  induction chs as [|x chs IH]; intros us HF vs HV; [exact HV|]. destruct us as [|u us]; [exact HV|]. cbn [combine fold_left fst snd]. inversion HF; subst. apply IH; auto.
  clear - HV H1. revert x. induction HV as [|v l Hv HV IH]; intros [|x]; cbn; constructor; auto.
Qed.

(** The setter for lists of components. *)
Definition comp_step (acc : list (name * (C * R))) (x : name * C) : list (name * (C * R)) :=
  let a := match dget leqb (fst x) acc with Some (a, _) => (a + snd x)%C | None => snd x end in
  dset leqb (fst x) (a, Cnorm2 a) acc.
Definition amp_in (nm : name) (cs : list (name * (C * R))) : C := match dget leqb nm cs with Some ap => fst ap | None => RtoC 0 end.
Lemma comp_step_amp acc x nm : amp_in nm (comp_step acc x) = (amp_in nm acc + (if leqb (fst x) nm then snd x else RtoC 0))%C.
Proof.
  unfold comp_step, amp_in. cbv zeta. destruct (leqb (fst x) nm) eqn:E.
  - apply leqb_spec in E. subst nm. rewrite (dget_dset_same leqb leqb_spec). destruct (dget leqb (fst x) acc) as [[a p]|]; cbn [fst]; [reflexivity|]. now rewrite Cplus_0_l.
  - rewrite (dget_dset_other leqb leqb_spec); [now rewrite Cplus_0_r|]. intros ->. rewrite (proj2 (leqb_spec _ _) eq_refl) in E. discriminate.
Qed.
Lemma components_of_list_amp l nm : amp_in nm (components_of_list l) = Csum l (fun x => if leqb (fst x) nm then snd x else RtoC 0).
Proof.
  unfold components_of_list. change (fold_left _ l []) with (fold_left comp_step l []).
  assert (G : forall acc, amp_in nm (fold_left comp_step l acc) = (amp_in nm acc + Csum l (fun x => if leqb (fst x) nm then snd x else RtoC 0))%C).
  { induction l as [|x l IH]; intros acc; cbn [fold_left]; [rewrite Csum_nil; now rewrite Cplus_0_r|]. rewrite IH, comp_step_amp, Csum_cons. now rewrite Cplus_assoc. }
  rewrite G. unfold amp_in at 1. cbn. apply Cplus_0_l.
Qed.
Lemma components_of_list_keys l : NoDup (map fst (components_of_list l)) /\ (forall nm, In nm (map fst (components_of_list l)) -> In nm (map fst l)) /\
  (forall nm a p, In (nm, (a, p)) (components_of_list l) -> p = Cnorm2 a).
Proof.
  unfold components_of_list. change (fold_left _ l []) with (fold_left comp_step l []).
  assert (G : forall acc, NoDup (map fst acc) -> (forall nm a p, In (nm, (a, p)) acc -> p = Cnorm2 a) ->
    NoDup (map fst (fold_left comp_step l acc)) /\ (forall nm, In nm (map fst (fold_left comp_step l acc)) -> In nm (map fst acc) \/ In nm (map fst l)) /\
    (forall nm a p, In (nm, (a, p)) (fold_left comp_step l acc) -> p = Cnorm2 a)).
  { induction l as [|x l IH]; intros acc ND HP; cbn [fold_left]; [auto|]. destruct (IH (comp_step acc x)) as (A1 & A2 & A3).
    - apply (dset_NoDup leqb leqb_spec). exact ND.
    - intros nm a p Hin. unfold comp_step in Hin. cbv zeta in Hin. apply (in_dset leqb leqb_spec) in Hin. destruct Hin as [[_ E]|Hin]; [now injection E as -> ->|eauto].
    - split; [exact A1|]. split; [|exact A3]. intros nm Hn. apply A2 in Hn. destruct Hn as [Hn|Hn]; [|right; now right].
      unfold comp_step in Hn. cbv zeta in Hn. change (map fst (dset leqb ?k ?v ?d)) with (dkeys (dset leqb k v d)) in Hn.
      rewrite (dkeys_dset leqb) in Hn. destruct (dmem leqb (fst x) acc); [now left|]. apply in_app_or in Hn. destruct Hn as [Hn|[<-|[]]]; [now left|]. right. now left. }
  destruct (G []) as (A1 & A2 & A3); [constructor|intros ? ? ? []|]. split; [exact A1|]. split; [|exact A3]. intros nm Hn. apply A2 in Hn. destruct Hn as [[]|Hn]; exact Hn.
Qed.

(** A sum over the components is a sum over all tuples. *)
Lemma Csum_comps D st (g : values -> C) : 1 <= dL D -> wf_state D st ->
  Csum (s_comps st) (fun c => g (values_of_name D (fst c)) * fst (snd c))%C = Csum (all_values D) (fun vs => g vs * amp_of D st vs)%C.
Proof.
  intros HL W. pose proof (fun c => MeasureProofs.wf_comp_values D st c HL W) as HC. destruct W as [ND _].
  assert (HA : forall vs, valid D vs -> amp_of D st vs = Csum (s_comps st) (fun c => if leqb (fst c) (name_string D vs) then fst (snd c) else RtoC 0)).
  { intros vs V. unfold amp_of, amplitude. clear HC. induction (s_comps st) as [|[nm [a p]] l IH]; [now rewrite Csum_nil|]. cbn [dget map fst] in *. inversion ND as [|x y Hx ND']; subst.
    rewrite Csum_cons. cbn [fst snd]. destruct (leqb nm (name_string D vs)) eqn:E.
    - apply leqb_spec in E. subst nm. rewrite (proj2 (leqb_spec _ _) eq_refl). rewrite Csum_zero; [now rewrite Cplus_0_r|].
      intros [nm' ap] Hin. cbn [fst snd]. destruct (leqb nm' (name_string D vs)) eqn:E'; [|reflexivity]. apply leqb_spec in E'. subst nm'. exfalso. apply Hx.
      change (name_string D vs) with (fst (name_string D vs, ap)). now apply in_map.
    - destruct (leqb (name_string D vs) nm) eqn:E'; [|rewrite Cplus_0_l; now apply IH]. exfalso.
      apply leqb_spec in E'. subst nm. rewrite (proj2 (leqb_spec _ _) eq_refl) in E. discriminate. }
  rewrite (Csum_ext (all_values D) _ (fun vs => Csum (s_comps st) (fun c => g vs * (if leqb (fst c) (name_string D vs) then fst (snd c) else RtoC 0))%C)).
  2:{ intros vs Hv. apply all_values_in in Hv; auto. rewrite HA by auto. now rewrite Csum_scal_l. }
  rewrite Csum_swap. apply Csum_ext. intros c Hc. destruct (HC c Hc) as [V E]. rewrite (Csum_single _ (values_of_name D (fst c))).
  - rewrite E, (proj2 (leqb_spec _ _) eq_refl). reflexivity.
  - now apply all_values_NoDup.
  - now apply all_values_in.
  - intros vs Hv Hne. apply all_values_in in Hv; auto. destruct (leqb (fst c) (name_string D vs)) eqn:E'; [|apply Cmult_0_r].
    exfalso. apply Hne. apply leqb_spec in E'. rewrite E'. symmetry. apply values_of_name_string, Hv.
Qed.

Lemma round4_near x : exists k : Z, round4 x = (IZR k / 10000)%R /\ (Rabs (x - IZR k / 10000) <= 1 / 20000)%R /\
  (Rabs (x - IZR k / 10000) = 1 / 20000 -> Z.even k = true)%R.
Proof.
  unfold round4. destruct (archimed (x * 10000)) as [A B]. set (n := (up (x * 10000) - 1)%Z).
  assert (Hn : IZR n = (IZR (up (x * 10000)) - 1)%R) by (unfold n; now rewrite minus_IZR). rewrite <- (Zplus_0_r (up _)) in A. 
  assert (HA : (0 <= x * 10000 - IZR n < 1)%R) by (rewrite Zplus_0_r in A; lra). clearbody n. clear A B Hn.
  destruct (Rlt_dec (x * 10000 - IZR n) (1/2)) as [H|H].
  { exists n. split; [reflexivity|]. split; [apply Rabs_le; lra|]. intros E. exfalso. revert E. unfold Rabs. destruct (Rcase_abs _); lra. }
  destruct (Rlt_dec (1/2) (x * 10000 - IZR n)) as [H'|H'].
  { exists (n + 1)%Z. rewrite plus_IZR. split; [reflexivity|]. split; [apply Rabs_le; lra|]. intros E. exfalso. revert E. unfold Rabs. destruct (Rcase_abs _); lra. }
  destruct (Z.even n) eqn:En.
  - exists n. split; [reflexivity|]. split; [apply Rabs_le; lra|auto].
  - exists (n + 1)%Z. rewrite plus_IZR. split; [reflexivity|]. split; [apply Rabs_le; lra|]. intros _. rewrite Z.even_add, En. reflexivity.
Qed.
Lemma nearest_unique x (k l : Z) : (Rabs (x - IZR k / 10000) <= 1 / 20000)%R -> (Rabs (x - IZR k / 10000) = 1 / 20000 -> Z.even k = true)%R ->
  (Rabs (x - IZR l / 10000) <= 1 / 20000)%R -> (Rabs (x - IZR l / 10000) = 1 / 20000 -> Z.even l = true)%R -> k = l.
Proof.
  intros H1 E1 H2 E2.
  assert (Hb : forall k, (Rabs (x - IZR k / 10000) <= 1 / 20000)%R -> (IZR k - 1/2 <= x * 10000 <= IZR k + 1/2)%R).
  { intros m H. revert H. unfold Rabs. destruct (Rcase_abs _); lra. }
  pose proof (Hb _ H1) as B1. pose proof (Hb _ H2) as B2.
  assert (Hd : (-1 <= k - l <= 1)%Z) by (split; apply le_IZR; rewrite minus_IZR; lra).
  destruct (Z.eq_dec k l) as [|N]; [assumption|]. exfalso.
  assert (Hc : (k = l + 1 \/ l = k + 1)%Z) by lia.
  assert (Rabs (x - IZR k / 10000) = 1 / 20000 /\ Rabs (x - IZR l / 10000) = 1 / 20000)%R as [T1 T2].
  { destruct Hc as [-> | ->]; rewrite plus_IZR in *; split; unfold Rabs; destruct (Rcase_abs _); lra. }
  apply E1 in T1. apply E2 in T2. destruct Hc as [-> | ->]; rewrite Z.even_add in *; [rewrite T2 in T1|rewrite T1 in T2]; discriminate.
Qed.
Lemma used_kept eps z : used eps z <-> coef_kept eps z = true.
Proof.
  unfold used, coef_kept. destruct (round4_near (Cmod z)) as (k & -> & Hk & Ek). unfold Rltb. split.
  - intros (l & Hl & El & H). assert (l = k) as -> by (eapply nearest_unique; eauto). destruct (Rlt_dec _ _); [reflexivity|contradiction].
  - destruct (Rlt_dec _ _); [|discriminate]. eauto.
Qed.
Lemma small_removed_kept eps T : small_removed eps T (fun i o => if coef_kept eps (T i o) then T i o else RtoC 0).
Proof. intros i o. rewrite used_kept. destruct (coef_kept _ _); split; intros; congruence. Qed.

Definition kept_part (eps : R) (T : mat) : mat := fun i o => if coef_kept eps (T i o) then T i o else RtoC 0.

Lemma component_images_spec D K eps T chs vs a l : 1 <= dL D -> component_images D K eps T chs vs a = Some l ->
  contains_values K (selected chs vs) = true /\ Forall (fun c => c < dN D) chs /\
  (forall x, In x l -> exists us, valid D us /\ fst x = name_string D us) /\
  forall to, valid D to -> valid D vs ->
    Csum l (fun x => if leqb (fst x) (name_string D to) then snd x else RtoC 0) =
    (Csum (seq 0 (size_of_basis K)) (fun o => if list_eq_dec Nat.eq_dec (replace_values chs (values_from_index K o) vs) to
        then kept_part eps T (index_of_values K (selected chs vs)) o else RtoC 0) * a)%C.
Proof.
  intros HL E. unfold component_images in E. cbv zeta in E. fold (selected chs vs) in E. destruct (contains_values K (selected chs vs)) eqn:Hc; [|discriminate].
  destruct (forallb _ chs) eqn:Hf; [|discriminate]. cbn [andb] in E. split; [reflexivity|]. split.
  { apply Forall_forall. rewrite forallb_forall in Hf. intros c H. apply Nat.ltb_lt. now apply Hf. }
  apply option_list_some in E.
  assert (HCV : forall us, contains_values D us = true -> valid D us) by (intros us H; now apply contained_spec).
  split.
  - intros x Hx. assert (Hin : In (Some x) (map Some l)) by now apply in_map. rewrite <- E in Hin. apply in_map_iff in Hin. destruct Hin as (o & Eo & _).
    destruct (contains_values D _) eqn:Hv; [|discriminate]. injection Eo as <-. eexists. split; [apply HCV; exact Hv|reflexivity].
  - intros to Vt V.
    rewrite <- Csum_scal_r. rewrite (Csum_ext (seq 0 (size_of_basis K)) _ (fun o => if coef_kept eps (T (index_of_values K (selected chs vs)) o) then
       (if list_eq_dec Nat.eq_dec (replace_values chs (values_from_index K o) vs) to then T (index_of_values K (selected chs vs)) o * a else RtoC 0) else RtoC 0)%C).
    2:{ intros o _. unfold kept_part. destruct (list_eq_dec _ _ _), (coef_kept _ _); ring. }
    rewrite <- (Csum_filter (fun o => coef_kept eps (T (index_of_values K (selected chs vs)) o)) (seq 0 (size_of_basis K))
      (fun o => if list_eq_dec Nat.eq_dec (replace_values chs (values_from_index K o) vs) to then T (index_of_values K (selected chs vs)) o * a else RtoC 0)%C).
    revert l E. generalize (filter (fun o => coef_kept eps (T (index_of_values K (selected chs vs)) o)) (seq 0 (size_of_basis K))).
    intros os. induction os as [|o os IH]; intros [|x l] E; cbn [map] in E; try discriminate; [now rewrite !Csum_nil|].
    injection E as E1 E2. rewrite !Csum_cons, (IH l E2). f_equal. destruct (contains_values D _) eqn:Hv; [|discriminate]. injection E1 as <-. cbn [fst snd].
    destruct (list_eq_dec _ _ _) as [->|Hne]; [now rewrite (proj2 (leqb_spec _ _) eq_refl)|].
    destruct (leqb _ _) eqn:El; [|reflexivity]. exfalso. apply Hne. apply leqb_spec in El. apply name_string_inj in El; auto; [apply HCV; exact Hv|apply Vt].
Qed.

(** The effect of the transition matrix on a state: coefficients that are too small are ignored. *)
Lemma state_transformed : forall D K ncl eps T chs st st', 1 <= dL D -> dL K = dL D -> NoDup chs -> length chs = dN K ->
  wf_state D st -> apply_operator D K ncl eps T chs st = Some st' ->
  Forall (fun c => c < dN D) chs ->
  transformed D K chs (matrix_action K (fun i o => if coef_kept eps (T i o) then T i o else RtoC 0)) st st'.
Proof.
  intros D K ncl eps T chs st st' HL HLK ND Hlen W E HF. assert (HLK1 : 1 <= dL K) by lia. unfold apply_operator in E.
  destruct (copy_state eps ncl st) as [st0|] eqn:Ec; [|discriminate].
  assert (st0 = st) as -> by (unfold copy_state, make_state in Ec; destruct (check_state _ _ st); [now injection Ec|discriminate]).
  destruct (option_list _) as [ll|] eqn:El; [|discriminate]. cbn [option_map] in E. injection E as <-. apply option_list_some in El.
  assert (HC := fun c => MeasureProofs.wf_comp_values D st c HL W).
  assert (HI : Forall2 (fun c l => component_images D K eps T chs (values_of_name D (fst c)) (fst (snd c)) = Some l) (s_comps st) ll).
  { clear - El. revert ll El. generalize (s_comps st). intros cs. induction cs as [|c cs IH]; intros [|l ll] E; cbn [map] in E; try discriminate; [constructor|].
    injection E as E1 E2. constructor; auto. }
  clear El. destruct (components_of_list_keys (concat ll)) as (K1 & K2 & K3).
  split; [now repeat split|]. split; [|split].
  - split; [exact K1|]. intros nm Hn. cbn [with_comps s_comps] in Hn. apply K2 in Hn. apply in_map_iff in Hn. destruct Hn as (x & <- & Hx). apply in_concat in Hx.
    destruct Hx as (l & Hl & Hx). clear - HL HI Hl Hx. induction HI as [|c l0 cs ll H HI IH]; [destruct Hl|]. destruct Hl as [->|Hl]; [|auto].
    destruct (component_images_spec D K eps T chs _ _ l HL H) as (_ & _ & H' & _). now apply H'.
  - exact K3.
  - intros to psi Vt [HS1 HS2]. unfold amp_of, amplitude. cbn [with_comps s_comps].
    change (match dget leqb (name_string D to) (components_of_list (concat ll)) with Some ap => fst ap | None => RtoC 0 end) with (amp_in (name_string D to) (components_of_list (concat ll))).
    rewrite components_of_list_amp.
    assert (HLc : forall us, valid K us -> length us = length chs) by (intros us [H _]; congruence).
    set (g := fun vs => Csum (seq 0 (size_of_basis K)) (fun o => if list_eq_dec Nat.eq_dec (replace_values chs (values_from_index K o) vs) to
        then kept_part eps T (index_of_values K (selected chs vs)) o else RtoC 0)).
    transitivity (Csum (s_comps st) (fun c => g (values_of_name D (fst c)) * fst (snd c))%C).
    { clear K1 K2 K3. revert HC. induction HI as [|c l cs ll H HI IH]; intros HC; [reflexivity|]. cbn [concat]. rewrite Csum_app, Csum_cons. f_equal; [|apply IH; intros; apply HC; now right].
      destruct (component_images_spec D K eps T chs _ _ l HL H) as (_ & _ & _ & H'). apply H'; auto. apply HC. now left. }
    rewrite (Csum_comps D st g HL W).
    assert (Vsel : forall vs, valid D vs -> valid K (selected chs vs)).
    { intros vs V. split; [unfold selected; now rewrite map_length|]. unfold selected. apply Forall_forall. intros x Hx. apply in_map_iff in Hx. destruct Hx as (c & <- & _).
      rewrite HLK. now apply nth_valid. }
    assert (HFv : forall vs, valid D vs -> Forall (fun c => c < length vs) chs) by (intros vs [H _]; rewrite H; exact HF).
    unfold matrix_action. replace (contained K (selected chs to)) with true by (symmetry; apply contained_spec; now apply Vsel).
    set (jt := index_of_values K (selected chs to)). fold (kept_part eps T).
    transitivity (Csum (all_values D) (fun vs => Csum (seq 0 (size_of_basis K)) (fun i =>
      if list_eq_dec Nat.eq_dec (replace_values chs (values_from_index K i) to) vs then kept_part eps T i jt * amp_of D st vs else RtoC 0)%C)).
    + apply Csum_ext. intros vs Hv. apply all_values_in in Hv; auto.
      assert (HE : forall w1 w2 i, valid D w1 -> valid D w2 -> i < size_of_basis K -> (replace_values chs (values_from_index K i) w1 = w2 <->
         i = index_of_values K (selected chs w2) /\ forall c, ~ In c chs -> nth c w1 0 = nth c w2 0)).
      { intros w1 w2 i V1 V2 Hi. rewrite replace_values_eq; auto; [|apply HLc; now apply values_from_index_valid|rewrite (proj1 V1); apply V2].
        split; intros [H1 H2]; (split; [|exact H2]); [rewrite <- H1; symmetry; now apply index_values_roundtrip|]. rewrite H1. apply values_index_roundtrip; auto. }
      destruct (list_eq_dec Nat.eq_dec (replace_values chs (selected chs to) vs) to) as [Ea|Na].
      * apply replace_values_eq in Ea; auto; try (now apply HLc, Vsel); try (rewrite (proj1 Vt); symmetry; apply Hv); try (rewrite (proj1 Vt); apply Hv). destruct Ea as [_ Ha].
        rewrite (Csum_single _ (index_of_values K (selected chs vs))).
        -- destruct (list_eq_dec _ _ _) as [_|H].
           2:{ exfalso. apply H. apply HE; auto; [now apply index_of_values_bound, Vsel|]. split; [reflexivity|]. intros c Hc. symmetry. now apply Ha. }
           f_equal. unfold g. rewrite (Csum_single _ jt).
           ++ destruct (list_eq_dec _ _ _) as [_|H]; [reflexivity|]. exfalso. apply H. apply HE; auto. now apply index_of_values_bound, Vsel.
           ++ apply seq_NoDup.
           ++ apply in_seq. pose proof (index_of_values_bound K _ (Vsel to Vt)). unfold jt. lia.
           ++ intros o Ho Hne. apply in_seq in Ho. destruct (list_eq_dec _ _ _) as [H|]; [|reflexivity]. apply HE in H; auto; [|lia]. destruct H as [H _]. contradiction.
        -- apply seq_NoDup.
        -- apply in_seq. pose proof (index_of_values_bound K _ (Vsel vs Hv)). lia.
        -- intros i Hi Hne. apply in_seq in Hi. destruct (list_eq_dec _ _ _) as [H|]; [|reflexivity]. apply HE in H; auto; [|lia]. destruct H as [H _]. contradiction.
      * assert (Hna : ~ forall c, ~ In c chs -> nth c vs 0 = nth c to 0).
        { intros H. apply Na. apply replace_values_eq; auto; try (now apply HLc, Vsel); try (rewrite (proj1 Vt); symmetry; apply Hv). }
        rewrite Csum_zero.
        -- unfold g. rewrite Csum_zero; [apply Cmult_0_l|]. intros o Ho. apply in_seq in Ho. destruct (list_eq_dec _ _ _) as [H|]; [|reflexivity]. exfalso. apply Hna.
           apply HE in H; auto; [|lia]. apply H.
        -- intros i Hi. apply in_seq in Hi. destruct (list_eq_dec _ _ _) as [H|]; [|reflexivity]. exfalso. apply Hna. apply HE in H; auto; [|lia]. intros c Hc. symmetry. now apply H.
    + rewrite Csum_swap. apply Csum_ext. intros i Hi. apply in_seq in Hi.
      pose proof (values_from_index_valid K i HLK1) as Vi.
      assert (Vr : valid D (replace_values chs (values_from_index K i) to)) by (apply replace_values_valid; auto; rewrite <- HLK; apply Vi).
      rewrite (Csum_single _ (replace_values chs (values_from_index K i) to)).
      * destruct (list_eq_dec _ _ _) as [_|H]; [|contradiction]. rewrite Cmult_comm. f_equal.
        rewrite <- (HS2 _ Vr); [rewrite selected_replace; auto|]. intros c Hc. now apply replace_values_other.
      * now apply all_values_NoDup.
      * now apply all_values_in.
      * intros vs _ Hne. destruct (list_eq_dec _ _ _) as [H|]; [congruence|reflexivity].
Qed.

(** The operator does not raise for channels that exist in the circuit. *)
Lemma option_list_exists {A B} (g : A -> option B) l : (forall x, In x l -> g x <> None) -> exists r, option_list (map g l) = Some r.
Proof.
  induction l as [|x l IH]; intros H; [eexists; reflexivity|]. destruct (IH (fun y Hy => H y (or_intror Hy))) as (r & E). cbn [map option_list]. rewrite E.
  destruct (g x) as [y|] eqn:Ey; [eexists; reflexivity|]. exfalso. apply (H x); [now left|exact Ey].
Qed.
Lemma component_images_ok D K eps T chs vs a : 1 <= dL D -> dL K = dL D -> NoDup chs -> length chs = dN K ->
  Forall (fun c => c < dN D) chs -> valid D vs -> exists l, component_images D K eps T chs vs a = Some l.
Proof.
  intros HL HLK ND Hlen HF V. unfold component_images. cbv zeta. fold (selected chs vs).
  assert (HLK1 : 1 <= dL K) by lia.
  replace (contains_values K (selected chs vs)) with true.
  2:{ symmetry. apply contained_spec. split; [unfold selected; now rewrite map_length|]. unfold selected. apply Forall_forall. intros x Hx. apply in_map_iff in Hx. destruct Hx as (c & <- & _).
      rewrite HLK. now apply nth_valid. }
  replace (forallb (fun c => c <? dN D) chs) with true.
  2:{ symmetry. apply forallb_forall. rewrite Forall_forall in HF. intros c Hc. apply Nat.ltb_lt. now apply HF. }
  cbn [andb]. apply option_list_exists. intros o Ho.
  pose proof (values_from_index_valid K o HLK1) as Vi.
  assert (Vr : valid D (replace_values chs (values_from_index K o) vs)) by (apply replace_values_valid; auto; rewrite <- HLK; apply Vi).
  assert (Hc : contains_values D (replace_values chs (values_from_index K o) vs) = true) by (apply contained_spec; exact Vr). rewrite Hc. discriminate.
Qed.
Lemma apply_operator_ok D K ncl eps T chs st : 1 <= dL D -> dL K = dL D -> NoDup chs -> length chs = dN K ->
  Forall (fun c => c < dN D) chs -> wf_state D st -> check_state eps ncl st = true -> exists st', apply_operator D K ncl eps T chs st = Some st'.
Proof.
  intros HL HLK ND Hlen HF W HC. unfold apply_operator, copy_state, make_state. rewrite HC.
  destruct (option_list (map _ (s_comps st))) as [l|] eqn:E; [eexists; reflexivity|]. exfalso.
  assert (H : exists l, option_list (map (fun c => component_images D K eps T chs (values_of_name D (fst c)) (fst (snd c))) (s_comps st)) = Some l).
  { apply option_list_exists. intros c Hc. destruct (component_images_ok D K eps T chs (values_of_name D (fst c)) (fst (snd c))) as (l & ->); auto; [|discriminate].
    now apply (MeasureProofs.wf_comp_values D st c HL W). }
  destruct H as (l & H). congruence.
Qed.

Lemma operator_items_inv D K ncl eps T chs rnd : forall its acc sd out sd',
  fold_left (fun (acc : option (items * nat)) (it : ident * state) =>
      match acc, apply_operator D K ncl eps T chs (snd it) with
      | Some (out, sd), Some st => Some (add_state_random rnd sd st out)
      | _, _ => None
      end) its (Some (acc, sd)) = Some (out, sd') ->
  exists sts, map snd out = map snd acc ++ sts /\ Forall2 (fun it st => apply_operator D K ncl eps T chs (snd it) = Some st) its sts.
Proof.
  induction its as [|[i st] its IH]; intros acc sd out sd' E; cbn [fold_left] in E.
  - injection E as <- <-. exists []. rewrite app_nil_r. split; constructor.
  - cbn [snd] in E. destruct (apply_operator D K ncl eps T chs st) as [ns|] eqn:Ec.
    2:{ exfalso. clear - E. induction its; cbn [fold_left] in E; [discriminate|auto]. }
    destruct (add_state_random rnd sd ns acc) as [acc2 sd2] eqn:Ea.
    apply IH in E. destruct E as (sts & E & HF). assert (Ea' : acc2 = fst (add_state_random rnd sd ns acc)) by now rewrite Ea.
    exists (ns :: sts). split; [|constructor; [exact Ec|exact HF]].
    rewrite E, Ea', add_state_random_app, map_app. cbn [map snd]. now rewrite <- app_assoc.
Qed.
Lemma operator_items_some D K ncl eps T chs rnd its : Forall (fun it : ident * state => exists st, apply_operator D K ncl eps T chs (snd it) = Some st) its ->
  forall acc, exists r, fold_left (fun (acc : option (items * nat)) (it : ident * state) =>
      match acc, apply_operator D K ncl eps T chs (snd it) with
      | Some (out, sd), Some st => Some (add_state_random rnd sd st out)
      | _, _ => None
      end) its (Some acc) = Some r.
Proof.
  intros HF. induction HF as [|it l (st & H) HF IH]; intros [out sd]; [eexists; reflexivity|]. cbn [fold_left]. rewrite H. apply IH.
Qed.

(** The node in a circuit: every state is transformed by the transition matrix, without its too
    small coefficients. *)
Lemma evaluate_transformed : forall X rnd rnd' c k chs hs T cs cs', let K := limited (dL (co_D cs)) (operator_channels hs) in
  1 <= dL (co_D cs) -> k < length (c_nodes c) -> node_at c k = hamiltonian_operator_gate rnd' chs hs ->
  NoDup chs -> length chs = dN K -> Forall (fun ch => ch < dN (co_D cs)) chs ->
  transition_matrix (dL (co_D cs)) 25 hs = Some T ->
  Forall (fun it => wf_state (co_D cs) (snd it)) (co_items cs) ->
  evaluate_nodes X rnd c [k] cs = Ok cs' ->
  Forall2 (fun it it' => transformed (co_D cs) K chs (matrix_action K (fun i o => if coef_kept (co_eps cs) (T i o) then T i o else RtoC 0)) (snd it) (snd it'))
    (co_items cs) (co_items cs').
Proof.
  intros X rnd rnd' c k chs hs T cs cs' K HL Hk En ND Hlen HF ET HW E. rewrite PropMeasure.evaluate_single in E by (auto; now rewrite En).
  unfold run_node in E. rewrite En in E. unfold hamiltonian_operator_gate in E. rewrite ET in E. unfold apply_operator_collection in E.
  destruct (fold_left _ _ _) as [[out sd]|] eqn:Ec; [|discriminate]. cbn [option_map of_option fst] in E. injection E as <-. cbn [with_items co_items].
  apply operator_items_inv in Ec. destruct Ec as (sts & Em & H2). cbn [map app] in Em. subst sts. clear En Hk. revert out H2.
  induction HW as [|it l W HW IH]; intros [|[i' s'] out] H2; cbn [map] in H2; inversion H2 as [|x y l1 l2 Hx Hl]; subst; [constructor|].
  constructor; [|now apply IH]. cbn [snd] in Hx |- *. eapply state_transformed; eauto.
Qed.

(** C41: one state. *)
Theorem C41_state : forall D K ncl eps T chs st st', 1 <= dL D -> dL K = dL D -> NoDup chs -> length chs = dN K ->
  wf_state D st -> apply_operator D K ncl eps T chs st = Some st' -> Forall (fun c => c < dN D) chs ->
  exists T', small_removed eps T T' /\ transformed D K chs (matrix_action K T') st st'.
Proof.
  intros. eexists. split; [apply small_removed_kept|]. eapply state_transformed; eauto.
Qed.
Print Assumptions C41_state.

(** C41: the node in a circuit. *)
Theorem C41_evaluate : forall X rnd rnd' c k chs hs T cs cs', let K := limited (dL (co_D cs)) (operator_channels hs) in
  1 <= dL (co_D cs) -> k < length (c_nodes c) -> node_at c k = hamiltonian_operator_gate rnd' chs hs ->
  NoDup chs -> length chs = dN K -> Forall (fun ch => ch < dN (co_D cs)) chs ->
  transition_matrix (dL (co_D cs)) 25 hs = Some T ->
  Forall (fun it => wf_state (co_D cs) (snd it)) (co_items cs) ->
  evaluate_nodes X rnd c [k] cs = Ok cs' ->
  exists T', small_removed (co_eps cs) T T' /\
    Forall2 (fun it it' => transformed (co_D cs) K chs (matrix_action K T') (snd it) (snd it')) (co_items cs) (co_items cs').
Proof.
  intros X rnd rnd' c k chs hs T cs cs' K HL Hk En ND Hlen HF ET HW E. eexists. split; [apply small_removed_kept|].
  eapply (evaluate_transformed X rnd rnd' c k chs hs T cs cs'); eauto.
Qed.
Print Assumptions C41_evaluate.

(** All in one: what the user sees when no coefficient is dropped. The Hamiltonians act in the
    order of the reversed list (see [C41_order_refuted]); each as the first 25 terms of its
    exponential series. *)
Theorem C41_evaluate_partial : forall X rnd rnd' c k chs hs T cs cs', let K := limited (dL (co_D cs)) (operator_channels hs) in
  1 <= dL (co_D cs) -> k < length (c_nodes c) -> node_at c k = hamiltonian_operator_gate rnd' chs hs ->
  NoDup chs -> length chs = dN K -> Forall (fun ch => ch < dN (co_D cs)) chs ->
  transition_matrix (dL (co_D cs)) 25 hs = Some T ->
  (forall i o, i < size_of_basis K -> o < size_of_basis K -> T i o = RtoC 0 \/ used (co_eps cs) (T i o)) ->
  Forall (fun it => wf_state (co_D cs) (snd it)) (co_items cs) ->
  evaluate_nodes X rnd c [k] cs = Ok cs' ->
  Forall2 (fun it it' => transformed (co_D cs) K chs (in_order K (operator_channels hs) 25 (rev hs)) (snd it) (snd it'))
    (co_items cs) (co_items cs').
Proof.
  intros X rnd rnd' c k chs hs T cs cs' K HL Hk En ND Hlen HF ET HT HW E.
  eapply PropEval.Forall2_impl; [|eapply (evaluate_transformed X rnd rnd' c k chs hs T cs cs'); eauto].
  intros it it' (H1 & H2 & H3 & H4). split; [exact H1|]. split; [exact H2|]. split; [exact H3|]. intros to psi Vt HS. rewrite (H4 to psi Vt HS).
  assert (Hp : 1 <= 25) by lia. rewrite <- (C41_transition (dL (co_D cs)) 25 hs T psi HL Hp ET (proj1 HS)). fold K. apply matrix_action_ext; auto.
  intros i j Hi Hj. destruct (coef_kept (co_eps cs) (T i j)) eqn:Ek; [reflexivity|]. destruct (HT i j Hi Hj) as [->|H]; [reflexivity|apply used_kept in H; congruence].
Qed.

Theorem C41_does_not_raise : forall X rnd rnd' c k chs hs cs, let K := limited (dL (co_D cs)) (operator_channels hs) in
  1 <= dL (co_D cs) -> k < length (c_nodes c) -> node_at c k = hamiltonian_operator_gate rnd' chs hs ->
  NoDup chs -> length chs = dN K -> Forall (fun ch => ch < dN (co_D cs)) chs ->
  operator_channels hs <> [] -> Forall (fun ch => ch < number_of_channels (operator_channels hs)) (operator_channels hs) ->
  Forall (fun it => wf_state (co_D cs) (snd it) /\ check_state (co_eps cs) (co_ncl cs) (snd it) = true) (co_items cs) ->
  exists cs', evaluate_nodes X rnd c [k] cs = Ok cs'.
Proof.
  intros X rnd rnd' c k chs hs cs K HL Hk En ND Hlen HF Hne HO HW. rewrite PropMeasure.evaluate_single by (auto; now rewrite En).
  unfold run_node. rewrite En. unfold hamiltonian_operator_gate.
  destruct (transition_matrix (dL (co_D cs)) 25 hs) as [T|] eqn:ET.
  - unfold apply_operator_collection. destruct (operator_items_some (co_D cs) K (co_ncl cs) (co_eps cs) T chs rnd' (co_items cs)) with (acc := (@nil (ident * state), 0)) as ([out sd] & E').
    + eapply Forall_impl; [|exact HW]. intros it [H1 H2]. now apply apply_operator_ok.
    + fold K. match goal with |- context[fold_left ?F (co_items cs) (Some ([], 0))] => replace (fold_left F (co_items cs) (Some ([], 0))) with (Some (out, sd)) by (symmetry; exact E') end.
      cbn. eexists. reflexivity.
  - exfalso. unfold transition_matrix in ET. cbv zeta in ET. destruct (operator_channels hs) as [|ch r] eqn:Eo; [contradiction|].
    destruct (forallb _ hs) eqn:Ef; [discriminate|]. apply Bool.not_true_iff_false in Ef. apply Ef. apply forallb_forall. intros h Hh. apply forallb_forall. intros op Hop.
    unfold word_ok. apply forallb_forall. intros [c0 cmd] Hin. apply in_combine_l in Hin. rewrite Forall_forall in HO. specialize (HO c0 Hin). cbn [fst snd]. destruct cmd; auto; now apply Nat.ltb_lt.
Qed.

(** ** Operators that conserve the number of photons *)
Definition number_change (w : list command) : Z :=
  fold_right (fun c n => match c with Plus => n + 1 | Minus => n - 1 | Skip => n end)%Z 0%Z w.

Lemma total_set_nth (vs : values) c x : c < length vs -> (Z.of_nat (list_sum (set_nth vs c x)) = Z.of_nat (list_sum vs) + Z.of_nat x - Z.of_nat (nth c vs 0%nat))%Z.
Proof.
  revert c. induction vs as [|v vs IH]; intros [|c] Hc; cbn [length] in Hc; try lia.
  - cbn. lia.
  - change (set_nth (v :: vs) (S c) x) with (v :: set_nth vs c x). change (nth (S c) (v :: vs) 0) with (nth c vs 0).
    change (list_sum (v :: set_nth vs c x)) with (v + list_sum (set_nth vs c x)). change (list_sum (v :: vs)) with (v + list_sum vs).
    rewrite !Nat2Z.inj_add, IH by lia. lia.
Qed.
Lemma run_word_total k chs w : forall vs a to b, length w <= length chs -> word_ok k (combine chs w) = true -> length vs = k -> run_word (combine chs w) vs a = Some (to, b) ->
  (Z.of_nat (list_sum to) = Z.of_nat (list_sum vs) + number_change w)%Z.
Proof.
  revert chs. induction w as [|cmd w IH]; intros [|c chs] vs a to b Hw Hok Hl E; cbn [combine run_word length] in *; try lia.
  - injection E as <- _. cbn. lia.
  - injection E as <- _. cbn. lia.
  - cbn [word_ok forallb] in Hok. apply andb_prop in Hok. destruct Hok as [Hc Hok]. fold (word_ok k (combine chs w)) in Hok. cbn [fst snd] in Hc.
    change (number_change (cmd :: w)) with (match cmd with Plus => number_change w + 1 | Minus => number_change w - 1 | Skip => number_change w end)%Z.
    destruct cmd; cbv zeta in E.
    + apply Nat.ltb_lt in Hc. eapply IH in E; eauto; [|lia|now rewrite set_nth_length]. rewrite E, total_set_nth by lia. lia.
    + apply Nat.ltb_lt in Hc. destruct (Nat.eqb_spec (nth c vs 0) 0) as [|H0]; [discriminate|]. eapply IH in E; eauto; [|lia|now rewrite set_nth_length].
      rewrite E, total_set_nth by lia. lia.
    + eapply IH in E; eauto. lia.
Qed.

Definition blocks (K : dims) (M : mat) : Prop := forall i o, i < size_of_basis K -> o < size_of_basis K ->
  list_sum (values_from_index K i) <> list_sum (values_from_index K o) -> M i o = RtoC 0.
Lemma blocks_id K : blocks K (fun i j => if i =? j then RtoC 1 else RtoC 0).
Proof. intros i o _ _ H. destruct (Nat.eqb_spec i o) as [->|]; [contradiction|reflexivity]. Qed.
Lemma blocks_mul K A B : blocks K A -> blocks K B -> blocks K (mat_mul (size_of_basis K) A B).
Proof.
  intros HA HB i o Hi Ho H. unfold mat_mul. apply Csum_zero. intros m Hm. apply in_seq in Hm.
  destruct (Nat.eq_dec (list_sum (values_from_index K i)) (list_sum (values_from_index K m))) as [E|E].
  - rewrite (HB m o); [apply Cmult_0_r|lia|lia|congruence].
  - rewrite (HA i m); [apply Cmult_0_l|lia|lia|exact E].
Qed.
Lemma blocks_pow K M n : blocks K M -> blocks K (mat_pow (size_of_basis K) M n).
Proof. intros H. induction n as [|n IH]; cbn [mat_pow]; [apply blocks_id|now apply blocks_mul]. Qed.
Lemma blocks_exponential K p M : blocks K M -> blocks K (exponential (size_of_basis K) p M).
Proof.
  intros H i o Hi Ho Hne. unfold exponential. assert (G : forall l acc, acc = RtoC 0 -> fold_left (fun acc n => acc + RtoC (/ INR (fact n)) * mat_pow (size_of_basis K) M n i o)%C l acc = RtoC 0).
  { induction l as [|n l IH]; intros acc ->; [reflexivity|]. cbn [fold_left]. apply IH. rewrite (blocks_pow K M n H i o Hi Ho Hne). ring. }
  apply G. exact (blocks_id K i o Hi Ho Hne).
Qed.
Lemma blocks_combine K l : Forall (blocks K) l -> blocks K (combine_matrices (size_of_basis K) l).
Proof.
  intros H. unfold combine_matrices. assert (G : forall acc, blocks K acc -> blocks K (fold_left (fun T M => mat_mul (size_of_basis K) M T) l acc)).
  { induction H as [|M l HM HF IH]; intros acc Ha; [exact Ha|]. cbn [fold_left]. apply IH. now apply blocks_mul. }
  apply G, blocks_id.
Qed.

(** Strings with as many '+' as '-': the operator never mixes different numbers of photons. *)
Theorem C41_photon_number : forall L power hs T, let K := limited L (operator_channels hs) in
  1 <= L -> transition_matrix L power hs = Some T ->
  (forall h op, In h hs -> In op (h_operators h) -> length (fst op) <= length (operator_channels hs) /\ number_change (fst op) = 0%Z) ->
  forall from to, valid K from -> valid K to -> T (index_of_values K from) (index_of_values K to) <> RtoC 0 ->
  list_sum to = list_sum from.
Proof.
  intros L power hs T K HL E HN from to Vf Vt Hne. unfold transition_matrix in E. cbv zeta in E.
  assert (E' : (if forallb (fun h => forallb (fun op => word_ok (number_of_channels (operator_channels hs)) (combine (operator_channels hs) (fst op))) (h_operators h)) hs
    then Some (combine_matrices (size_of_basis K) (map (fun h => exponential (size_of_basis K) power (limited_matrix L (operator_channels hs) (h_operators h))) hs)) else None) = Some T).
  { unfold K. destruct (operator_channels hs); [discriminate E|exact E]. }
  clear E. destruct (forallb _ hs) eqn:Ef; [|discriminate]. injection E' as <-. rewrite forallb_forall in Ef.
  assert (HLK : 1 <= dL K) by exact HL.
  assert (HB : blocks K (combine_matrices (size_of_basis K) (map (fun h => exponential (size_of_basis K) power (limited_matrix L (operator_channels hs) (h_operators h))) hs))).
  { apply blocks_combine. apply Forall_forall. intros M HM. apply in_map_iff in HM. destruct HM as (h & <- & Hh). apply blocks_exponential.
    intros i o Hi Ho Hs. unfold limited_matrix. cbv zeta. fold K. apply Csum_zero. intros op Hop. destruct (HN h op Hh Hop) as [Hl Hz].
    destruct (run_word _ _ _) as [[vs b]|] eqn:Er; [|reflexivity]. destruct (forallb (fun v => v <? L) vs) eqn:Ev; [|reflexivity]. cbn [andb].
    destruct (Nat.eqb_spec (index_of_values K vs) o) as [Eo|]; [|reflexivity]. exfalso. apply Hs.
    pose proof (values_from_index_valid K i HLK) as [Li _].
    assert (Hlv : length vs = dN K) by (rewrite <- Li; eapply run_word_length; eauto).
    assert (Vv : valid K vs).
    { split; [exact Hlv|]. apply Forall_forall. rewrite forallb_forall in Ev. intros v Hv. apply Nat.ltb_lt. now apply Ev. }
    specialize (Ef h Hh). rewrite forallb_forall in Ef. specialize (Ef op Hop).
    eapply (run_word_total (number_of_channels (operator_channels hs))) in Er; eauto.
    rewrite <- Eo, values_index_roundtrip by auto. lia. }
  destruct (Nat.eq_dec (list_sum from) (list_sum to)) as [|Hd]; [now symmetry|]. exfalso. apply Hne. apply HB; try (now apply index_of_values_bound).
  rewrite !values_index_roundtrip by auto. exact Hd.
Qed.

(** The hypotheses hold for the wave plate in a circuit with a photon in the first channel. *)
Example C41_case : forall X rnd rnd' theta phi,
  let c := Circuit (Dims 2 3 true) 1 0 false (fresh_keys (Dims 2 3 true)) [wave_plate_from_hamiltonian rnd' 0 2 theta phi] in
  let cs := Coll (Dims 2 3 true) 1 0 [([97], State [120] 1 [([1;0;0], (RtoC 1, 1%R))] [0%R] [] [])] in
  (exists T, transition_matrix 2 25 (wave_plate_hamiltonians theta phi) = Some T /\
     forall from to, valid (Dims 2 2 true) from -> valid (Dims 2 2 true) to ->
       T (index_of_values (Dims 2 2 true) from) (index_of_values (Dims 2 2 true) to) <> RtoC 0 -> list_sum to = list_sum from) /\
  exists cs' it', evaluate_circuit X rnd c cs = Ok cs' /\ co_items cs' = [it'] /\ wf_state (Dims 2 3 true) (snd it').
Proof.
  intros X rnd rnd' theta phi c cs. destruct (transition_matrix 2 25 (wave_plate_hamiltonians theta phi)) as [T|] eqn:ET; [|discriminate ET]. split.
  - exists T. split; [reflexivity|]. apply (C41_photon_number 2 25 _ T (le_S _ _ (le_n 1)) ET). intros h op Hh Hop. cbn [operator_channels wave_plate_hamiltonians h_channels length].
    unfold wave_plate_hamiltonians in Hh. cbv zeta in Hh. cbn [In] in Hh.
    destruct Hh as [<-|[<-|[<-|[<-|[]]]]]; cbn [h_operators In] in Hop; destruct Hop as [<-|[<-|[]]]; split; reflexivity || (cbn; lia).
  - assert (W : wf_state (Dims 2 3 true) (State [120] 1 [([1;0;0], (RtoC 1, 1%R))] [0%R] [] [])).
    { split; cbn [s_comps map fst]; [constructor; [intros []|constructor]|]. intros nm [<-|[]]. exists [1;0;0]. split; [|reflexivity]. split; [reflexivity|]. repeat constructor. }
    assert (HC : check_state 0 1 (State [120] 1 [([1;0;0], (RtoC 1, 1%R))] [0%R] [] []) = true).
    { unfold check_state, Rltb. cbn [s_cum s_comps s_classical forallb snd length Nat.eqb]. repeat (destruct (Rlt_dec _ _); [lra|]). reflexivity. }
    assert (ND : NoDup [0;2]) by (constructor; [intros [H|[]]; discriminate|constructor; [intros []|constructor]]).
    assert (HF : Forall (fun ch => ch < 3) [0;2]) by (repeat constructor).
    destruct (C41_does_not_raise X rnd rnd' c 0 [0;2] (wave_plate_hamiltonians theta phi) cs) as (cs' & E); try reflexivity; auto; try (intros Hx; exact (nil_cons (eq_sym Hx))).
    + cbn; lia.
    + change (Forall (fun ch => ch < 2) [0;0;1;1]). repeat constructor.
    + apply Forall_cons; [|apply Forall_nil]. split; [exact W|exact HC].
    + assert (HW : Forall (fun it : ident * state => wf_state (Dims 2 3 true) (snd it)) (co_items cs)) by (apply Forall_cons; [exact W|apply Forall_nil]).
      pose proof (evaluate_transformed X rnd rnd' c 0 [0;2] (wave_plate_hamiltonians theta phi) T cs cs') as H.
      specialize (H ltac:(cbn; lia) ltac:(cbn; lia) eq_refl ND eq_refl HF ET HW E). inversion H as [|x it' l l' (_ & H1 & _) Hl Ex El]; subst. inversion Hl; subst.
      exists cs', it'. split; [exact E|]. split; [now symmetry|exact H1].
Qed.
