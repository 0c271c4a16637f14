(** Proofs about names, tuples, indices and the look-up caches. *)
From Coq Require Import List Arith Lia Bool Permutation.
From Verif Require Import Prelude NamesModel NamesSpec.
Import ListNotations.

(** ** Digits *)
Lemma ndigits_aux_pos f n : 1 <= ndigits_aux f n.
Proof. destruct f; simpl; [lia|]. destruct (n <? 10); lia. Qed.
Lemma ndigits_pos n : 1 <= ndigits n.
Proof. apply ndigits_aux_pos. Qed.

Lemma ndigits_aux_bound f n : n <= f -> n < 10 ^ ndigits_aux f n.
Proof.
  revert n; induction f as [|f IH]; intros n H; cbn [ndigits_aux].
  - replace n with 0 by lia. apply Nat.lt_0_1 || (simpl; lia).
  - destruct (n <? 10) eqn:E.
    + apply Nat.ltb_lt in E. simpl. lia.
    + apply Nat.ltb_ge in E.
      assert (Hd : n / 10 <= f).
      { assert (n / 10 < n) by (apply Nat.div_lt; lia). lia. }
      specialize (IH _ Hd).
      rewrite Nat.pow_succ_r'.
      pose proof (Nat.div_mod n 10). pose proof (Nat.mod_upper_bound n 10). lia.
Qed.
Lemma ndigits_bound n : n < 10 ^ ndigits n.
Proof. apply ndigits_aux_bound. lia. Qed.

Lemma pad_length w n : length (pad w n) = w.
Proof. unfold pad. now rewrite map_length, seq_length. Qed.

Lemma pad_S w n : pad (S w) n = pad w (n / 10) ++ [n mod 10].
Proof.
  unfold pad. rewrite seq_S, map_app. f_equal.
  - apply map_ext_in. intros k Hk. apply in_seq in Hk.
    replace (S w - 1 - k) with (S (w - 1 - k)) by lia.
    rewrite Nat.pow_succ_r', Nat.div_div; [reflexivity|lia|].
    apply Nat.pow_nonzero; lia.
  - cbn [map]. replace (S w - 1 - (0 + w)) with 0 by lia. rewrite Nat.pow_0_r, Nat.div_1_r. reflexivity.
Qed.

Lemma parse_app l d : parse (l ++ [d]) = 10 * parse l + d.
Proof. unfold parse. now rewrite fold_left_app. Qed.

Lemma parse_pad w n : n < 10 ^ w -> parse (pad w n) = n.
Proof.
  revert n; induction w as [|w IH]; intros n H.
  - simpl in H. assert (n = 0) by lia. subst. reflexivity.
  - rewrite pad_S, parse_app, IH.
    + pose proof (Nat.div_mod n 10). lia.
    + rewrite Nat.pow_succ_r' in H. apply Nat.div_lt_upper_bound; lia.
Qed.

(** ** Chunks *)
Lemma chunks_aux_concat w (ls : list (list nat)) f :
  0 < w -> Forall (fun l => length l = w) ls -> length (concat ls) <= f ->
  chunks_aux f w (concat ls) = ls.
Proof.
  intros Hw. revert f; induction ls as [|l ls IH]; intros f HF Hf.
  - destruct f; reflexivity.
  - inversion HF; subst. cbn [concat] in *. rewrite app_length in Hf.
    destruct f as [|f]; [lia|].
    cbn [chunks_aux]. destruct (l ++ concat ls) eqn:E.
    { apply app_eq_nil in E. destruct E; subst. simpl in Hw. lia. }
    rewrite <- E. rewrite firstn_app, skipn_app, Nat.sub_diag, firstn_all, skipn_all.
    simpl. rewrite app_nil_r. f_equal. apply IH; auto. lia.
Qed.
Lemma chunks_concat w ls :
  0 < w -> Forall (fun l => length l = w) ls -> chunks w (concat ls) = ls.
Proof. intros; apply chunks_aux_concat; auto. Qed.

(** ** Validity *)
Lemma contains_values_spec D vs : contains_values D vs = true <-> valid D vs.
Proof.
  unfold contains_values, valid. rewrite andb_true_iff, Nat.eqb_eq, forallb_forall, Forall_forall.
  split; intros [H1 H2]; split; auto; intros x Hx; specialize (H2 x Hx); now apply Nat.ltb_lt.
Qed.

Lemma values_of_name_string D vs :
  Forall (fun v => v < dL D) vs -> values_of_name D (name_string D vs) = vs.
Proof.
  intros HF. unfold values_of_name, name_string.
  rewrite chunks_concat; [| apply ndigits_pos|].
  2:{ apply Forall_forall. intros l Hl. apply in_map_iff in Hl. destruct Hl as (x & <- & _).
      apply pad_length. }
  rewrite map_map.
  assert (HF' : forall us, Forall (fun v => v < dL D) us ->
             map (fun x => parse (pad (digits_per_channel D) x)) us = us).
  { intros us Hus. rewrite <- (map_id us) at 2. apply map_ext_in. intros a Ha.
    apply parse_pad. rewrite Forall_forall in Hus. specialize (Hus a Ha).
    pose proof (ndigits_bound (dL D - 1)). unfold digits_per_channel. lia. }
  destruct (dLeft D).
  - now apply HF'.
  - rewrite HF'; [apply rev_involutive|]. now apply Forall_rev.
Qed.

Lemma name_of_values_valid D vs :
  Forall (fun v => v < dL D) vs -> name_of_values D vs = Some (name_string D vs).
Proof.
  intros HF. unfold name_of_values.
  replace (forallb _ vs) with true; [reflexivity|]. symmetry.
  apply forallb_forall. rewrite Forall_forall in HF. intros x Hx. apply Nat.ltb_lt. auto.
Qed.

Lemma concat_length_const {A} (w : nat) (ls : list (list A)) :
  Forall (fun l => length l = w) ls -> length (concat ls) = length ls * w.
Proof.
  induction 1 as [|l ls Hl HF IH]; [reflexivity|]. simpl. rewrite app_length, IH, Hl. reflexivity.
Qed.

Lemma name_string_length D vs :
  length (name_string D vs) = length vs * digits_per_channel D.
Proof.
  unfold name_string. rewrite (concat_length_const (digits_per_channel D)).
  - rewrite map_length. destruct (dLeft D); [reflexivity|]. now rewrite rev_length.
  - apply Forall_forall. intros l Hl. apply in_map_iff in Hl. destruct Hl as (x & <- & _).
    apply pad_length.
Qed.

Lemma name_string_inj D us vs :
  Forall (fun v => v < dL D) us -> Forall (fun v => v < dL D) vs ->
  name_string D us = name_string D vs -> us = vs.
Proof.
  intros Hu Hv E. rewrite <- (values_of_name_string D us), <- (values_of_name_string D vs); auto.
  now rewrite E.
Qed.

(** ** Indices *)
Lemma index_from_shift L c vs : index_from L (S c) vs = L * index_from L c vs.
Proof.
  revert c; induction vs as [|v r IH]; intros c; [simpl; lia|].
  cbn [index_from]. rewrite IH, Nat.pow_succ_r'. lia.
Qed.

Lemma index_from_cons L v r : index_from L 0 (v :: r) = v + L * index_from L 0 r.
Proof. cbn [index_from]. rewrite index_from_shift. simpl. lia. Qed.

Lemma index_of_bound L vs :
  Forall (fun v => v < L) vs -> index_from L 0 vs < L ^ length vs.
Proof.
  induction 1 as [|v r Hv HF IH].
  - simpl. lia.
  - rewrite index_from_cons. cbn [length]. rewrite Nat.pow_succ_r'.
    nia.
Qed.

Definition vals_from (L n i : nat) : values := map (fun c => (i / L ^ c) mod L) (seq 0 n).

Lemma vals_from_S L n i :
  0 < L -> vals_from L (S n) i = (i mod L) :: vals_from L n (i / L).
Proof.
  intros HL. unfold vals_from. cbn [seq map]. rewrite Nat.pow_0_r, Nat.div_1_r. f_equal.
  rewrite <- seq_shift, map_map. apply map_ext. intros c.
  rewrite Nat.pow_succ_r'. rewrite Nat.div_div; [reflexivity|lia|]. apply Nat.pow_nonzero. lia.
Qed.

Lemma vals_from_index L n vs :
  0 < L -> length vs = n -> Forall (fun v => v < L) vs ->
  vals_from L n (index_from L 0 vs) = vs.
Proof.
  intros HL Hlen HF. revert n Hlen. induction HF as [|v r Hv HF IH]; intros n Hlen; subst n.
  - reflexivity.
  - cbn [length]. rewrite vals_from_S by auto. rewrite index_from_cons.
    replace (v + L * index_from L 0 r) with (v + index_from L 0 r * L) by lia.
    rewrite Nat.mod_add by lia. rewrite Nat.div_add by lia.
    rewrite Nat.mod_small, (Nat.div_small v) by auto. rewrite Nat.add_0_l. f_equal. auto.
Qed.

Lemma index_vals_from L n i :
  0 < L -> i < L ^ n -> index_from L 0 (vals_from L n i) = i.
Proof.
  intros HL. revert i; induction n as [|n IH]; intros i Hi.
  - simpl in *. lia.
  - rewrite vals_from_S by auto. rewrite index_from_cons, IH.
    + pose proof (Nat.div_mod i L). lia.
    + rewrite Nat.pow_succ_r' in Hi. apply Nat.div_lt_upper_bound; lia.
Qed.

Lemma values_from_index_valid D i : 1 <= dL D -> valid D (values_from_index D i).
Proof.
  intros HL. split.
  - unfold values_from_index. now rewrite map_length, seq_length.
  - apply Forall_forall. intros v Hv. apply in_map_iff in Hv. destruct Hv as (c & <- & _).
    apply Nat.mod_upper_bound. lia.
Qed.

Lemma values_index_roundtrip D vs :
  1 <= dL D -> valid D vs -> values_from_index D (index_of_values D vs) = vs.
Proof. intros HL [Hlen HF]. apply vals_from_index; auto. Qed.

Lemma index_values_roundtrip D i :
  1 <= dL D -> i < size_of_basis D -> index_of_values D (values_from_index D i) = i.
Proof. intros HL Hi. apply index_vals_from; auto. Qed.

Lemma index_of_values_bound D vs : valid D vs -> index_of_values D vs < size_of_basis D.
Proof. intros [Hlen HF]. unfold size_of_basis. rewrite <- Hlen. apply index_of_bound; auto. Qed.

Lemma values_from_index_0 D : values_from_index D 0 = repeat 0 (dN D).
Proof.
  unfold values_from_index. generalize 0 at 2 as s. induction (dN D) as [|n IH]; intros s; [reflexivity|].
  cbn [seq map repeat]. rewrite IH. f_equal.
  destruct (Nat.eq_dec (dL D ^ s) 0) as [E|E].
  - rewrite E. destruct (dL D); [reflexivity|]. now rewrite Nat.mod_0_l.
  - rewrite Nat.div_0_l by auto. destruct (dL D); [reflexivity|]. now rewrite Nat.mod_0_l.
Qed.

(** ** Basis enumeration *)
Lemma map_inj_NoDup {A B} (f : A -> B) l :
  (forall x y, In x l -> In y l -> f x = f y -> x = y) -> NoDup l -> NoDup (map f l).
Proof.
  intros H ND. induction ND as [|x l Hx ND IH]; simpl; constructor.
  - intros Hin. apply in_map_iff in Hin. destruct Hin as (y & E & Hy).
    apply H in E; [subst; contradiction|now right|now left].
  - apply IH. intros; apply H; auto using in_cons.
Qed.

Lemma values_from_index_inj D i j :
  1 <= dL D -> i < size_of_basis D -> j < size_of_basis D ->
  values_from_index D i = values_from_index D j -> i = j.
Proof.
  intros HL Hi Hj E. rewrite <- (index_values_roundtrip D i), <- (index_values_roundtrip D j); auto.
  now rewrite E.
Qed.

Definition all_values (D : dims) : list values :=
  map (values_from_index D) (seq 0 (size_of_basis D)).
Definition all_names (D : dims) : list name := map (at_index D) (seq 0 (size_of_basis D)).

Lemma all_values_NoDup D : 1 <= dL D -> NoDup (all_values D).
Proof.
  intros HL. apply map_inj_NoDup; [|apply seq_NoDup].
  intros x y Hx Hy E. apply in_seq in Hx, Hy. apply (values_from_index_inj D); auto; lia.
Qed.

Lemma all_values_in D vs : 1 <= dL D -> (In vs (all_values D) <-> valid D vs).
Proof.
  intros HL. unfold all_values. rewrite in_map_iff. split.
  - intros (i & <- & Hi). now apply values_from_index_valid.
  - intros Hv. exists (index_of_values D vs). split; [now apply values_index_roundtrip|].
    apply in_seq. pose proof (index_of_values_bound D vs Hv). lia.
Qed.

Lemma all_names_map D : all_names D = map (name_string D) (all_values D).
Proof. unfold all_names, all_values. rewrite map_map. reflexivity. Qed.

Lemma all_names_NoDup D : 1 <= dL D -> NoDup (all_names D).
Proof.
  intros HL. rewrite all_names_map. apply map_inj_NoDup; [|now apply all_values_NoDup].
  intros x y Hx Hy. apply all_values_in in Hx, Hy; auto. apply name_string_inj; [apply Hx|apply Hy].
Qed.

Lemma basis_items_keys D : map fst (basis_items D) = all_names D.
Proof. unfold basis_items, all_names. rewrite map_map. reflexivity. Qed.
Lemma basis_items_vals D : map snd (basis_items D) = all_values D.
Proof. unfold basis_items, all_values. rewrite map_map. reflexivity. Qed.
Lemma basis_items_length D : length (basis_items D) = size_of_basis D.
Proof. unfold basis_items. now rewrite map_length, seq_length. Qed.
Lemma dict_of_basis D : 1 <= dL D -> dict_of leqb (basis_items D) = basis_items D.
Proof.
  intros HL. apply (dict_of_nodup leqb leqb_spec). rewrite basis_items_keys. now apply all_names_NoDup.
Qed.
Lemma swap_basis_keys D :
  map fst (map (fun kv : name * values => (snd kv, fst kv)) (basis_items D)) = all_values D.
Proof. rewrite map_map. simpl. apply basis_items_vals. Qed.
Lemma dict_of_swap_basis D : 1 <= dL D ->
  dict_of leqb (map (fun kv => (snd kv, fst kv)) (basis_items D))
  = map (fun kv => (snd kv, fst kv)) (basis_items D).
Proof.
  intros HL. apply (dict_of_nodup leqb leqb_spec). rewrite swap_basis_keys. now apply all_values_NoDup.
Qed.

(** ** Cache invariant for histories of well-formed look-ups *)

(** Every entry of a table is an entry of the true codec. *)
Definition names_sound (D : dims) (d : list (name * values)) : Prop :=
  NoDup (dkeys d) /\ forall nm vs, In (nm, vs) d -> valid D vs /\ nm = name_string D vs.
Definition vals_sound (D : dims) (d : list (values * name)) : Prop :=
  NoDup (dkeys d) /\ forall vs nm, In (vs, nm) d -> valid D vs /\ nm = name_string D vs.

Definition opt_sound {A} (P : A -> Prop) (o : option A) : Prop :=
  match o with Some d => P d | None => True end.

Definition cache_sound (D : dims) (s : cache) : Prop :=
  names_sound D (k_names s) /\ vals_sound D (k_vals s) /\
  opt_sound (names_sound D) (k_cn s) /\ opt_sound (vals_sound D) (k_ov s).

Lemma names_sound_set D d vs :
  valid D vs -> names_sound D d -> names_sound D (dset leqb (name_string D vs) vs d).
Proof.
  intros Hv [ND H]. split; [now apply (dset_NoDup leqb leqb_spec)|].
  intros nm us Hin. apply (in_dset leqb leqb_spec) in Hin. destruct Hin as [[-> ->]|Hin]; auto.
Qed.
Lemma vals_sound_set D d vs :
  valid D vs -> vals_sound D d -> vals_sound D (dset leqb vs (name_string D vs) d).
Proof.
  intros Hv [ND H]. split; [now apply (dset_NoDup leqb leqb_spec)|].
  intros us nm Hin. apply (in_dset leqb leqb_spec) in Hin. destruct Hin as [[-> ->]|Hin]; auto.
Qed.

Lemma cn_names_sound D s : cache_sound D s -> names_sound D (cn_names s).
Proof. intros (H1 & H2 & H3 & H4). unfold cn_names. destruct (k_cn s); auto. Qed.
Lemma ov_vals_sound D s : cache_sound D s -> vals_sound D (ov_vals s).
Proof. intros (H1 & H2 & H3 & H4). unfold ov_vals. destruct (k_ov s); auto. Qed.

Lemma cn_getitem_sound D s vs :
  cache_sound D s -> valid D vs ->
  fst (cn_getitem D (name_string D vs) s) = vs /\
  cache_sound D (snd (cn_getitem D (name_string D vs) s)).
Proof.
  intros Hs Hv. unfold cn_getitem.
  destruct (dget leqb (name_string D vs) (cn_names s)) eqn:E; simpl.
  - split; auto. apply (dget_some_in leqb leqb_spec) in E.
    destruct (cn_names_sound D s Hs) as [_ H]. destruct (H _ _ E) as [Hv' En].
    symmetry in En. apply name_string_inj in En; [auto|apply Hv'|apply Hv].
  - rewrite values_of_name_string by apply Hv. split; auto.
    destruct Hs as (H1 & H2 & H3 & H4). unfold cn_update, orig_vals_update.
    destruct (k_cn s) eqn:Ec; simpl in *; (split; [|split; [|split]]); simpl; auto;
      try (apply names_sound_set; auto); try (apply vals_sound_set; auto).
Qed.

Lemma ov_getitem_sound D s vs :
  cache_sound D s -> valid D vs ->
  fst (ov_getitem D vs s) = Some (name_string D vs) /\
  cache_sound D (snd (ov_getitem D vs s)).
Proof.
  intros Hs Hv. unfold ov_getitem.
  destruct (dget leqb vs (ov_vals s)) eqn:E; simpl.
  - split; auto. apply (dget_some_in leqb leqb_spec) in E.
    destruct (ov_vals_sound D s Hs) as [_ H]. destruct (H _ _ E) as [Hv' En]. now subst.
  - rewrite name_of_values_valid by apply Hv. simpl. split; auto.
    destruct Hs as (H1 & H2 & H3 & H4). unfold ov_update, orig_names_update.
    destruct (k_ov s) eqn:Ec; simpl in *; (split; [|split; [|split]]); simpl; auto;
      try (apply names_sound_set; auto); try (apply vals_sound_set; auto).
Qed.

Lemma basis_names_sound D : 1 <= dL D -> names_sound D (basis_items D).
Proof.
  intros HL. split.
  - unfold dkeys. rewrite basis_items_keys. now apply all_names_NoDup.
  - intros nm vs Hin. apply in_map_iff in Hin. destruct Hin as (i & [= <- <-] & _).
    split; auto. now apply values_from_index_valid.
Qed.

Lemma cn_iter_sound D s : 1 <= dL D -> cache_sound D s -> cache_sound D (cn_iter D s).
Proof.
  intros HL Hs. unfold cn_iter. destruct (_ =? _); auto.
  destruct Hs as (H1 & H2 & H3 & H4). split; [|split; [|split]]; simpl; auto.
  rewrite dict_of_basis by auto. now apply basis_names_sound.
Qed.

Lemma names_sound_swap D d :
  names_sound D d -> vals_sound D (dict_of leqb (map (fun kv => (snd kv, fst kv)) d)).
Proof.
  intros [ND H].
  assert (E : dict_of leqb (map (fun kv => (snd kv, fst kv)) d) = map (fun kv => (snd kv, fst kv)) d).
  { apply (dict_of_nodup leqb leqb_spec). rewrite map_map; simpl.
    apply NoDup_map_inv with (f := name_string D).
    rewrite map_map.
    replace (map (fun x => name_string D (snd x)) d) with (dkeys d); auto.
    apply map_ext_in. intros [nm vs] Hin. simpl. apply (H nm vs Hin). }
  rewrite E. split.
  - unfold dkeys. rewrite map_map. simpl.
    apply NoDup_map_inv with (f := name_string D). rewrite map_map.
    replace (map (fun x => name_string D (snd x)) d) with (dkeys d); auto.
    apply map_ext_in. intros [nm vs] Hin. simpl. apply (H nm vs Hin).
  - intros vs nm Hin. apply in_map_iff in Hin. destruct Hin as ([nm' vs'] & [= <- <-] & Hin). auto.
Qed.

Lemma ov_iter_sound D s : 1 <= dL D -> cache_sound D s -> cache_sound D (ov_iter D s).
Proof.
  intros HL Hs. unfold ov_iter. destruct (_ =? _); auto.
  pose proof (cn_iter_sound D s HL Hs) as Hc.
  pose proof (cn_names_sound D _ Hc) as Hn.
  destruct Hc as (H1 & H2 & H3 & H4).
  split; [exact H1|]. split; [exact H2|]. split; [exact H3|].
  simpl. now apply names_sound_swap.
Qed.

(** A look-up of an existing component, by its proper name or photon numbers. *)
Definition wf_op (D : dims) (o : name_op) : Prop :=
  match o with
  | OpName nm | OpContains nm | OpIndex nm => exists vs, valid D vs /\ nm = name_string D vs
  | OpValues vs => valid D vs
  | OpNameKeys | OpValueKeys => True
  end.

Lemma name_step_sound D o s :
  1 <= dL D -> wf_op D o -> cache_sound D s -> cache_sound D (name_step D o s).
Proof.
  intros HL Hw Hs. destruct o; simpl in *.
  - destruct Hw as (vs & Hv & ->). now apply cn_getitem_sound.
  - destruct Hw as (vs & Hv & ->). unfold cn_contains.
    destruct (cn_getitem_sound D s vs Hs Hv) as [_ H]. destruct (cn_getitem D (name_string D vs) s). exact H.
  - destruct Hw as (vs & Hv & ->). unfold cn_index_of.
    destruct (cn_getitem_sound D s vs Hs Hv) as [_ H]. destruct (cn_getitem D (name_string D vs) s). exact H.
  - now apply ov_getitem_sound.
  - now apply cn_iter_sound.
  - now apply ov_iter_sound.
Qed.

Lemma zeros_valid D : 1 <= dL D -> valid D (repeat 0 (dN D)).
Proof.
  intros HL. split; [apply repeat_length|]. apply Forall_forall. intros v Hv.
  apply repeat_spec in Hv. subst. lia.
Qed.

Lemma cache_init_sound D : 1 <= dL D -> cache_sound D (cache_init D).
Proof.
  intros HL. apply ov_getitem_sound; [|now apply zeros_valid].
  repeat split; simpl; auto; try constructor; contradiction.
Qed.

Lemma name_run_sound D h s :
  1 <= dL D -> Forall (wf_op D) h -> cache_sound D s -> cache_sound D (name_run D h s).
Proof.
  intros HL HF. revert s; induction HF as [|o h Ho HF IH]; intros s Hs; simpl; auto.
  apply IH. now apply name_step_sound.
Qed.

(** A sound table with as many entries as the basis holds the whole basis. *)
Lemma names_sound_full D d :
  1 <= dL D -> names_sound D d -> length d = size_of_basis D -> Permutation (dkeys d) (all_names D).
Proof.
  intros HL [ND H] Hlen. apply NoDup_Permutation_bis; auto.
  - unfold dkeys, all_names. rewrite !map_length, seq_length. lia.
  - intros nm Hin. apply in_map_iff in Hin. destruct Hin as ([nm' vs] & <- & Hin). simpl.
    destruct (H _ _ Hin) as [Hv ->]. rewrite all_names_map. apply in_map. now apply all_values_in.
Qed.
Lemma vals_sound_full D d :
  1 <= dL D -> vals_sound D d -> length d = size_of_basis D -> Permutation (dkeys d) (all_values D).
Proof.
  intros HL [ND H] Hlen. apply NoDup_Permutation_bis; auto.
  - unfold dkeys, all_values. rewrite !map_length, seq_length. lia.
  - intros vs Hin. apply in_map_iff in Hin. destruct Hin as ([vs' nm] & <- & Hin). simpl.
    destruct (H _ _ Hin) as [Hv _]. now apply all_values_in.
Qed.

Lemma cn_keys_perm D s :
  1 <= dL D -> cache_sound D s -> Permutation (fst (cn_keys D s)) (all_names D).
Proof.
  intros HL Hs. unfold cn_keys, cn_iter. destruct (_ =? _) eqn:E; simpl.
  - apply Nat.eqb_eq in E. apply names_sound_full; auto. now apply cn_names_sound.
  - unfold cn_names. simpl. rewrite dict_of_basis by auto. unfold dkeys. now rewrite basis_items_keys.
Qed.

Lemma cn_iter_len D s :
  1 <= dL D -> length (cn_names (cn_iter D s)) = size_of_basis D.
Proof.
  intros HL. unfold cn_iter. destruct (_ =? _) eqn:E; [now apply Nat.eqb_eq in E|].
  unfold cn_names; simpl. rewrite dict_of_basis by auto. apply basis_items_length.
Qed.

Lemma ov_keys_perm D s :
  1 <= dL D -> cache_sound D s -> Permutation (fst (ov_keys D s)) (all_values D).
Proof.
  intros HL Hs. unfold ov_keys, ov_iter. destruct (_ =? _) eqn:E; simpl.
  - apply Nat.eqb_eq in E. apply vals_sound_full; auto. now apply ov_vals_sound.
  - unfold ov_vals; simpl.
    pose proof (cn_names_sound D _ (cn_iter_sound D s HL Hs)) as Hn.
    apply vals_sound_full; auto; [now apply names_sound_swap|].
    destruct Hn as [ND H].
    rewrite (dict_of_nodup leqb leqb_spec).
    + rewrite map_length. now apply cn_iter_len.
    + rewrite map_map. simpl. apply NoDup_map_inv with (f := name_string D). rewrite map_map.
      replace (map (fun x => name_string D (snd x)) (cn_names (cn_iter D s))) with (dkeys (cn_names (cn_iter D s))); auto.
      apply map_ext_in. intros [nm vs] Hin. simpl. apply (H nm vs Hin).
Qed.

(** Short histories: the tables are not full yet, so enumeration is in index order. *)
Lemma dset_length {V} k (v : V) d : length (dset leqb k v d) <= S (length d).
Proof.
  induction d as [|[k' v'] r IH]; simpl; [lia|]. destruct (leqb k k'); simpl; lia.
Qed.

Definition std_or_small (D : dims) (m : nat) (s : cache) : Prop :=
  (length (k_names s) <= m) /\ (length (k_vals s) <= m) /\
  (match k_cn s with Some d => d = basis_items D | None => True end) /\
  (match k_ov s with Some d => d = map (fun kv => (snd kv, fst kv)) (basis_items D) | None => True end).

Lemma dget_basis_name D vs :
  1 <= dL D -> valid D vs -> dget leqb (name_string D vs) (basis_items D) = Some vs.
Proof.
  intros HL Hv. apply (dget_in leqb leqb_spec).
  - unfold dkeys. rewrite basis_items_keys. now apply all_names_NoDup.
  - unfold basis_items. apply in_map_iff. exists (index_of_values D vs).
    rewrite values_index_roundtrip by auto. split; auto.
    apply in_seq. pose proof (index_of_values_bound D vs Hv). lia.
Qed.
Lemma dget_basis_vals D vs :
  1 <= dL D -> valid D vs ->
  dget leqb vs (map (fun kv => (snd kv, fst kv)) (basis_items D)) = Some (name_string D vs).
Proof.
  intros HL Hv. apply (dget_in leqb leqb_spec).
  - unfold dkeys. rewrite swap_basis_keys. now apply all_values_NoDup.
  - apply in_map_iff. exists (name_string D vs, vs). split; auto.
    apply (dget_some_in leqb leqb_spec). now apply dget_basis_name.
Qed.

Lemma std_mono D m m' s : m <= m' -> std_or_small D m s -> std_or_small D m' s.
Proof. intros Hm (H1 & H2 & H3 & H4). repeat split; auto; lia. Qed.

Lemma cn_getitem_std D m s vs :
  1 <= dL D -> valid D vs -> std_or_small D m s ->
  std_or_small D (S m) (snd (cn_getitem D (name_string D vs) s)).
Proof.
  intros HL Hv (H1 & H2 & H3 & H4). unfold cn_getitem.
  destruct (dget leqb (name_string D vs) (cn_names s)) eqn:E.
  - apply (std_mono D m); [lia|]. repeat split; auto.
  - unfold cn_names in E. unfold cn_update, orig_vals_update. destruct (k_cn s) eqn:Ec.
    + subst l. rewrite dget_basis_name in E by auto. discriminate.
    + repeat split; simpl; auto.
      * eapply Nat.le_trans; [apply dset_length|]. apply le_n_S; assumption.
      * eapply Nat.le_trans; [apply dset_length|]. apply le_n_S; assumption.
Qed.
Lemma ov_getitem_std D m s vs :
  1 <= dL D -> valid D vs -> std_or_small D m s ->
  std_or_small D (S m) (snd (ov_getitem D vs s)).
Proof.
  intros HL Hv (H1 & H2 & H3 & H4). unfold ov_getitem.
  destruct (dget leqb vs (ov_vals s)) eqn:E.
  - apply (std_mono D m); [lia|]. repeat split; auto.
  - unfold ov_vals in E. rewrite name_of_values_valid by apply Hv.
    unfold ov_update, orig_names_update. destruct (k_ov s) eqn:Ec.
    + subst l. rewrite dget_basis_vals in E by auto. discriminate.
    + repeat split; simpl; auto.
      * eapply Nat.le_trans; [apply dset_length|]. apply le_n_S; assumption.
      * eapply Nat.le_trans; [apply dset_length|]. apply le_n_S; assumption.
Qed.
Lemma cn_iter_std D m s :
  1 <= dL D -> m < size_of_basis D -> std_or_small D m s ->
  std_or_small D m (cn_iter D s) /\ cn_names (cn_iter D s) = basis_items D.
Proof.
  intros HL Hm (H1 & H2 & H3 & H4). unfold cn_iter.
  destruct (_ =? _) eqn:E.
  - split; [repeat split; auto|]. apply Nat.eqb_eq in E. unfold cn_names in *.
    destruct (k_cn s); auto. exfalso. lia.
  - split.
    + repeat split; simpl; auto. now apply dict_of_basis.
    + unfold cn_names; simpl. now apply dict_of_basis.
Qed.
Lemma ov_iter_std D m s :
  1 <= dL D -> m < size_of_basis D -> std_or_small D m s ->
  std_or_small D m (ov_iter D s) /\
  ov_vals (ov_iter D s) = map (fun kv => (snd kv, fst kv)) (basis_items D).
Proof.
  intros HL Hm Hs. destruct (cn_iter_std D m s HL Hm Hs) as [Hs' Hn].
  destruct Hs as (H1 & H2 & H3 & H4). unfold ov_iter. destruct (_ =? _) eqn:E.
  - split; [repeat split; auto|]. apply Nat.eqb_eq in E. unfold ov_vals in *.
    destruct (k_ov s); auto. exfalso. lia.
  - destruct Hs' as (G1 & G2 & G3 & G4). rewrite Hn, dict_of_swap_basis by auto.
    split; [repeat split; auto|]. reflexivity.
Qed.

Lemma name_step_std D o m s :
  1 <= dL D -> S m < size_of_basis D -> wf_op D o -> std_or_small D m s ->
  std_or_small D (S m) (name_step D o s).
Proof.
  intros HL Hm Hw Hs. destruct o; simpl in *.
  - destruct Hw as (vs & Hv & ->). now apply cn_getitem_std.
  - destruct Hw as (vs & Hv & ->). unfold cn_contains.
    pose proof (cn_getitem_std D m s vs HL Hv Hs) as H. destruct (cn_getitem D (name_string D vs) s). exact H.
  - destruct Hw as (vs & Hv & ->). unfold cn_index_of.
    pose proof (cn_getitem_std D m s vs HL Hv Hs) as H. destruct (cn_getitem D (name_string D vs) s). exact H.
  - now apply ov_getitem_std.
  - apply (std_mono D m); [lia|]. apply cn_iter_std; auto. lia.
  - apply (std_mono D m); [lia|]. apply ov_iter_std; auto. lia.
Qed.

Lemma name_run_std D h m s :
  1 <= dL D -> m + length h < size_of_basis D -> Forall (wf_op D) h -> std_or_small D m s ->
  std_or_small D (m + length h) (name_run D h s).
Proof.
  intros HL Hm HF. revert m Hm s; induction HF as [|o h Ho HF IH]; intros m Hm s Hs; simpl in *.
  - now rewrite Nat.add_0_r.
  - replace (m + S (length h)) with (S m + length h) by lia. apply IH; [lia|].
    apply name_step_std; auto. lia.
Qed.

Lemma cache_init_std D : 1 <= dL D -> std_or_small D 1 (cache_init D).
Proof.
  intros HL. unfold cache_init. apply ov_getitem_std; auto; [now apply zeros_valid|].
  repeat split; simpl; auto.
Qed.

(** Once the basis has been enumerated in index order it stays that way. *)
Definition std_enumerated (D : dims) (s : cache) : Prop :=
  k_cn s = Some (basis_items D) /\ k_ov s = Some (map (fun kv => (snd kv, fst kv)) (basis_items D)).

Lemma name_step_enumerated D o s :
  1 <= dL D -> wf_op D o -> std_enumerated D s -> name_step D o s = s.
Proof.
  intros HL Hw [H1 H2].
  assert (Hcn : forall vs, valid D vs -> cn_getitem D (name_string D vs) s = (vs, s)).
  { intros vs Hv. unfold cn_getitem, cn_names. rewrite H1, dget_basis_name; auto. }
  destruct o; simpl in *.
  - destruct Hw as (vs & Hv & ->). now rewrite Hcn.
  - destruct Hw as (vs & Hv & ->). unfold cn_contains. now rewrite Hcn.
  - destruct Hw as (vs & Hv & ->). unfold cn_index_of. now rewrite Hcn.
  - unfold ov_getitem, ov_vals. now rewrite H2, dget_basis_vals.
  - unfold cn_iter, cn_names. now rewrite H1, basis_items_length, Nat.eqb_refl.
  - unfold ov_iter, ov_vals. rewrite H2, map_length, basis_items_length, Nat.eqb_refl. reflexivity.
Qed.

Lemma wf_op_equiv D o : well_formed_lookup D o -> wf_op D o.
Proof.
  destruct o; simpl; auto; intros (vs & Hv & E); exists vs; split; auto;
  rewrite name_of_values_valid in E by apply Hv; congruence.
Qed.

Lemma pad_1 v : v < 10 -> pad 1 v = [v].
Proof.
  intros Hv. unfold pad. cbn [seq map]. replace (1 - 1 - 0) with 0 by lia.
  rewrite Nat.pow_0_r, Nat.div_1_r, Nat.mod_small; auto.
Qed.

Lemma ndigits_small n : n < 10 -> ndigits n = 1.
Proof.
  intros H. unfold ndigits. destruct n; [reflexivity|]. cbn [ndigits_aux].
  replace (S n <? 10) with true; [reflexivity|]. symmetry; now apply Nat.ltb_lt.
Qed.

Lemma name_string_single_digit D vs :
  dL D <= 10 -> Forall (fun v => v < dL D) vs ->
  name_string D vs = if dLeft D then vs else rev vs.
Proof.
  intros HL HF. unfold name_string, digits_per_channel. rewrite ndigits_small by lia.
  assert (G : forall us, Forall (fun v => v < dL D) us -> concat (map (pad 1) us) = us).
  { induction 1 as [|v us Hv HFu IH]; [reflexivity|]. cbn [map concat]. rewrite pad_1, IH by lia. reflexivity. }
  destruct (dLeft D); apply G; auto. now apply Forall_rev.
Qed.

Lemma perm_singleton {A} (l : list A) x : Permutation l [x] -> l = [x].
Proof. intros H. symmetry in H. now apply Permutation_length_1_inv in H. Qed.

Lemma size_1_or_more D : 1 <= dL D -> 1 <= size_of_basis D.
Proof. intros H. unfold size_of_basis. pose proof (Nat.pow_nonzero (dL D) (dN D)). lia. Qed.

Lemma fresh_cn_keys D : 1 <= dL D -> fst (cn_keys D (cache_init D)) = all_names D.
Proof.
  intros HL. pose proof (size_1_or_more D HL).
  destruct (Nat.eq_dec (size_of_basis D) 1) as [E|E].
  - pose proof (cn_keys_perm D _ HL (cache_init_sound D HL)) as P.
    unfold all_names in *. rewrite E in *. cbn [seq map] in *. now apply perm_singleton.
  - unfold cn_keys. cbn [fst]. destruct (cn_iter_std D 1 (cache_init D) HL) as [_ Hn]; [lia|now apply cache_init_std|].
    rewrite Hn. apply basis_items_keys.
Qed.
Lemma fresh_ov_keys D : 1 <= dL D -> fst (ov_keys D (cache_init D)) = all_values D.
Proof.
  intros HL. pose proof (size_1_or_more D HL).
  destruct (Nat.eq_dec (size_of_basis D) 1) as [E|E].
  - pose proof (ov_keys_perm D _ HL (cache_init_sound D HL)) as P.
    unfold all_values in *. rewrite E in *. cbn [seq map] in *. now apply perm_singleton.
  - unfold ov_keys. cbn [fst]. destruct (ov_iter_std D 1 (cache_init D) HL) as [_ Hn]; [lia|now apply cache_init_std|].
    rewrite Hn. apply swap_basis_keys.
Qed.
