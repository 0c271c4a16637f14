(** Property theorems C01-C04: names, tuples, indices, look-up tables. *)
From Coq Require Import List Arith Lia Bool Permutation.
From Verif Require Import Prelude NamesModel NamesSpec NamesProofs.
Import ListNotations.

(** ** C01 *)
Theorem C01_name_roundtrip : forall D vs,
  valid D vs ->
  exists nm,
    name_of_values D vs = Some nm /\
    values_of_name D nm = vs /\
    length nm = dN D * digits_per_channel D /\
    (forall us, valid D us -> name_of_values D us = Some nm -> us = vs) /\
    (dL D <= 10 -> nm = if dLeft D then vs else rev vs).
Proof.
  intros D vs Hv. exists (name_string D vs).
  split; [apply name_of_values_valid; apply Hv|].
  split; [apply values_of_name_string; apply Hv|].
  split; [rewrite name_string_length; f_equal; apply Hv|].
  split.
  - intros us Hu E. rewrite name_of_values_valid in E by apply Hu. injection E as E.
    apply name_string_inj with D; [apply Hu|apply Hv|auto].
  - intros HL. apply name_string_single_digit; auto. apply Hv.
Qed.

(** Two-digit channels, channel 0 at the right: (10,1,3) is written '030110'. *)
Example C01_case : valid (Dims 12 3 false) [10; 1; 3] /\
  name_of_values (Dims 12 3 false) [10; 1; 3] = Some [0;3;0;1;1;0].
Proof. split; [split; [reflexivity|repeat constructor]|reflexivity]. Qed.

(** ** C02 *)
Theorem C02_index_bijection : forall D,
  1 <= dL D ->
  (forall vs, valid D vs ->
     index_of_values D vs < dL D ^ dN D /\ values_from_index D (index_of_values D vs) = vs) /\
  (forall i, i < dL D ^ dN D ->
     valid D (values_from_index D i) /\ index_of_values D (values_from_index D i) = i) /\
  (forall v r, index_of_values D (v :: r) = v + dL D * index_of_values D r).
Proof.
  intros D HL. split; [|split].
  - intros vs Hv. split; [now apply index_of_values_bound|now apply values_index_roundtrip].
  - intros i Hi. split; [now apply values_from_index_valid|now apply index_values_roundtrip].
  - intros v r. apply index_from_cons.
Qed.

Example C02_case : valid (Dims 3 4 true) [1;2;0;1] /\ index_of_values (Dims 3 4 true) [1;2;0;1] = 1 + 2*3 + 0*9 + 1*27.
Proof. split; [split; [reflexivity|repeat constructor]|reflexivity]. Qed.

(** ** C03 *)
Theorem C03_basis_enumeration : forall D,
  1 <= dL D ->
  let names := fst (cn_keys D (cache_init D)) in
  let tuples := fst (ov_keys D (cache_init D)) in
  length names = dL D ^ dN D /\ NoDup names /\
  (forall nm, In nm names <-> exists vs, valid D vs /\ name_of_values D vs = Some nm) /\
  (forall i, i < dL D ^ dN D -> nth_error tuples i = Some (values_from_index D i)) /\
  (forall i vs, i < dL D ^ dN D -> nth_error tuples i = Some vs ->
      index_of_values D vs = i /\ nth_error names i = name_of_values D vs).
Proof.
  intros D HL names tuples. subst names tuples. rewrite fresh_cn_keys, fresh_ov_keys by auto.
  assert (Hnth : forall i, i < dL D ^ dN D -> nth_error (all_values D) i = Some (values_from_index D i)).
  { intros i Hi. unfold all_values. apply map_nth_error.
    rewrite nth_error_nth' with (d := 0) by (rewrite seq_length; auto).
    rewrite seq_nth; auto. }
  split; [|split; [|split; [|split]]].
  - unfold all_names. rewrite map_length, seq_length. reflexivity.
  - now apply all_names_NoDup.
  - intros nm. rewrite all_names_map, in_map_iff. split.
    + intros (vs & <- & Hin). apply all_values_in in Hin; auto. exists vs. split; auto.
      apply name_of_values_valid. apply Hin.
    + intros (vs & Hv & E). rewrite name_of_values_valid in E by apply Hv. injection E as <-.
      exists vs. split; auto. now apply all_values_in.
  - exact Hnth.
  - intros i vs Hi E. rewrite Hnth in E by auto. injection E as <-.
    split; [now apply index_values_roundtrip|].
    rewrite all_names_map, name_of_values_valid by now apply values_from_index_valid.
    apply map_nth_error. auto.
Qed.

Example C03_case : fst (cn_keys (Dims 2 2 true) (cache_init (Dims 2 2 true))) = [[0;0];[1;0];[0;1];[1;1]].
Proof. reflexivity. Qed.

(** ** C04: what survives *)
(** After any history of well-formed look-ups every translation is right and the
    enumerations contain the basis exactly once (in some order). *)
Theorem C04_lookup_history_sound_partial : forall D h,
  1 <= dL D -> Forall (well_formed_lookup D) h ->
  let s := name_run D h (cache_init D) in
  (forall vs nm, valid D vs -> name_of_values D vs = Some nm ->
     fst (ov_getitem D vs s) = Some nm /\ fst (cn_getitem D nm s) = vs /\
     fst (cn_contains D nm s) = true /\ fst (cn_index_of D nm s) = index_of_values D vs) /\
  Permutation (fst (cn_keys D s)) (fst (cn_keys D (cache_init D))) /\
  Permutation (fst (ov_keys D s)) (fst (ov_keys D (cache_init D))).
Proof.
  intros D h HL HF s.
  assert (Hs : cache_sound D s).
  { apply name_run_sound; auto; [|now apply cache_init_sound].
    eapply Forall_impl; [|exact HF]. intros o. apply wf_op_equiv. }
  split; [|split].
  - intros vs nm Hv E. rewrite name_of_values_valid in E by apply Hv. injection E as <-.
    split; [now apply ov_getitem_sound|].
    destruct (cn_getitem_sound D s vs Hs Hv) as [E _].
    split; [exact E|]. unfold cn_contains, cn_index_of.
    destruct (cn_getitem D (name_string D vs) s) as [us s']. simpl in *. subst us.
    split; auto. now apply contains_values_spec.
  - rewrite fresh_cn_keys by auto. now apply cn_keys_perm.
  - rewrite fresh_ov_keys by auto. now apply ov_keys_perm.
Qed.

(** As long as fewer look-ups than basis elements were made, the order is right too. *)
Theorem C04_short_history_order_partial : forall D h,
  1 <= dL D -> Forall (well_formed_lookup D) h -> S (length h) < dL D ^ dN D ->
  let s := name_run D h (cache_init D) in
  fst (cn_keys D s) = fst (cn_keys D (cache_init D)) /\
  fst (ov_keys D s) = fst (ov_keys D (cache_init D)).
Proof.
  intros D h HL HF Hlen s. rewrite fresh_cn_keys, fresh_ov_keys by auto.
  assert (Hs : std_or_small D (1 + length h) s).
  { apply name_run_std; auto; [|now apply cache_init_std].
    eapply Forall_impl; [|exact HF]. intros o. apply wf_op_equiv. }
  split.
  - unfold cn_keys; cbn [fst]. destruct (cn_iter_std D (1 + length h) s HL) as [_ ->]; auto. apply basis_items_keys.
  - unfold ov_keys; cbn [fst]. destruct (ov_iter_std D (1 + length h) s HL) as [_ ->]; auto. apply swap_basis_keys.
Qed.

Example C04_short_history_case :
  Forall (well_formed_lookup (Dims 2 3 true)) [OpName [1;0;1]; OpValues [0;1;1]; OpNameKeys] /\
  S (length [OpName [1;0;1]; OpValues [0;1;1]; OpNameKeys]) < 2 ^ 3.
Proof.
  split; [|simpl; lia].
  repeat constructor; simpl; auto. exists [1;0;1]. repeat constructor.
Qed.

(** The full property is false. (a) Looking up existing components by name is enough to
    make the basis come out in another order than on a fresh circuit. *)
Theorem C04_order_refuted : exists D h,
  dims_ok D = true /\ Forall (well_formed_lookup D) h /\
  fst (cn_keys D (name_run D h (cache_init D))) <> fst (cn_keys D (cache_init D)) /\
  fst (ov_keys D (name_run D h (cache_init D))) <> fst (ov_keys D (cache_init D)).
Proof.
  exists (Dims 2 2 true), [OpName [0;1]; OpName [1;0]; OpName [1;1]].
  split; [reflexivity|]. split.
  - repeat constructor; simpl.
    + exists [0;1]. repeat constructor.
    + exists [1;0]. repeat constructor.
    + exists [1;1]. repeat constructor.
  - split; vm_compute; discriminate.
Qed.

(** (b) A membership test on a string that is not the name of any component can
    answer True and changes the name later returned for an existing component. *)
Theorem C04_malformed_refuted : exists D nm vs,
  dims_ok D = true /\ valid D vs /\
  (forall us, valid D us -> name_of_values D us <> Some nm) /\
  fst (cn_contains D nm (cache_init D)) = true /\
  let s := name_run D [OpContains nm] (cache_init D) in
  fst (ov_getitem D vs s) = Some nm /\ fst (ov_getitem D vs s) <> name_of_values D vs.
Proof.
  exists (Dims 11 2 true), [1;0;1], [10;1].
  split; [reflexivity|]. split; [split; [reflexivity|repeat constructor]|]. split.
  - intros us Hu E. rewrite name_of_values_valid in E by apply Hu. injection E as E.
    apply (f_equal (@length nat)) in E. rewrite name_string_length in E.
    destruct Hu as [Hlen _]. rewrite Hlen in E. discriminate.
  - split; [reflexivity|]. split; [reflexivity|]. vm_compute. discriminate.
Qed.

(** (c) An impossible component name can take the place of an existing one in the
    enumerated basis. *)
Theorem C04_foreign_name_refuted : exists D h nm,
  dims_ok D = true /\
  In nm (fst (cn_keys D (name_run D h (cache_init D)))) /\
  (forall us, valid D us -> name_of_values D us <> Some nm).
Proof.
  exists (Dims 2 2 true), [OpContains [7;7]; OpContains [1;0]; OpContains [0;1]], [7;7].
  split; [reflexivity|]. split; [vm_compute; auto|].
  intros us [Hlen HF] E. rewrite name_of_values_valid in E by auto.
  rewrite name_string_single_digit in E; auto; [|simpl; lia]. simpl in E. injection E as ->.
  inversion HF; subst. simpl in *. lia.
Qed.

Print Assumptions C01_name_roundtrip.
Print Assumptions C02_index_bijection.
Print Assumptions C03_basis_enumeration.
Print Assumptions C04_lookup_history_sound_partial.
Print Assumptions C04_short_history_order_partial.
Print Assumptions C04_order_refuted.
Print Assumptions C04_malformed_refuted.
Print Assumptions C04_foreign_name_refuted.
