(** Renaming the components of a state. *)
From Coq Require Import Reals List Arith Lia Lra Bool Permutation.
From Coquelicot Require Import Complex.
From Verif Require Import Prelude NamesModel NamesSpec NamesProofs FockModel FockSpec StateModel StateSpec StateProofs
  CollectionModel MeasureSpec MeasureProofs ReshapeSpec.
Import ListNotations.

Definition renamed (D D' : dims) (f : values -> values) (cs : list (name * (C * R))) : list (name * (C * R)) :=
  map (fun c => (name_string D' (f (values_of_name D (fst c))), snd c)) cs.

Lemma has_comp D st c : 1 <= dL D -> wf_state D st -> In c (s_comps st) -> has D st (values_of_name D (fst c)).
Proof.
  intros HL W H. destruct (wf_comp_values D st c HL W H) as [V E]. split; [exact V|]. rewrite E. now apply in_map.
Qed.

Lemma renamed_spec D D' f st : 1 <= dL D -> wf_state D st ->
  (forall vs, has D st vs -> valid D' (f vs)) ->
  (forall us vs, has D st us -> has D st vs -> f us = f vs -> us = vs) ->
  let cs := renamed D D' f (s_comps st) in
  dict_of leqb cs = cs /\ wf_state D' (with_comps st cs) /\
  (forall vs, has D st vs -> amp_of D' (with_comps st cs) (f vs) = amp_of D st vs) /\
  (forall ws, Forall (fun v => v < dL D') ws -> (forall vs, has D st vs -> ws <> f vs) -> amp_of D' (with_comps st cs) ws = RtoC 0).
Proof.
  intros HL W Hv Hinj cs.
  assert (Hkey : forall nm, In nm (map fst cs) -> exists vs, has D st vs /\ nm = name_string D' (f vs)).
  { intros nm H. unfold cs, renamed in H. rewrite map_map in H. apply in_map_iff in H. destruct H as (c & <- & Hc).
    exists (values_of_name D (fst c)). split; [now apply has_comp|reflexivity]. }
  assert (ND : NoDup (map fst cs)).
  { unfold cs, renamed. rewrite map_map. cbn [fst].
    replace (map (fun c : name * (C * R) => name_string D' (f (values_of_name D (fst c)))) (s_comps st))
      with (map (fun nm => name_string D' (f (values_of_name D nm))) (map fst (s_comps st))) by now rewrite map_map.
    apply map_inj_NoDup; [|apply W]. intros a b Ha Hb E.
    apply in_map_iff in Ha. destruct Ha as (c & <- & Hc). apply in_map_iff in Hb. destruct Hb as (d & <- & Hd).
    pose proof (has_comp D st c HL W Hc) as H1. pose proof (has_comp D st d HL W Hd) as H2.
    apply name_string_inj in E; [|exact (proj2 (Hv _ H1))|exact (proj2 (Hv _ H2))]. apply Hinj in E; auto.
    destruct (wf_comp_values D st c HL W Hc) as [_ E1]. destruct (wf_comp_values D st d HL W Hd) as [_ E2].
    rewrite <- E1, <- E2. now f_equal. }
  split; [now apply (dict_of_nodup leqb leqb_spec)|]. split.
  { split; [exact ND|]. intros nm H. cbn [s_comps with_comps] in H. destruct (Hkey nm H) as (vs & Hh & ->). exists (f vs). split; auto. }
  split.
  - intros vs Hh. pose proof (proj1 Hh) as V. unfold amp_of, amplitude. cbn [s_comps with_comps].
    destruct Hh as [_ Hin]. apply in_map_iff in Hin. destruct Hin as ([nm ap] & En & Hc). cbn [fst] in En. subst nm.
    rewrite (dget_in leqb leqb_spec _ ap (s_comps st)); [|apply W|exact Hc].
    rewrite (dget_in leqb leqb_spec _ ap cs); [reflexivity|exact ND|].
    unfold cs, renamed. apply in_map_iff. exists (name_string D vs, ap). split; [|exact Hc]. cbn [fst snd].
    now rewrite values_of_name_string by (auto; exact (proj2 V)).
  - intros ws HF Hne. unfold amp_of, amplitude. cbn [s_comps with_comps].
    rewrite (proj2 (dget_none_iff leqb leqb_spec _ cs)); [reflexivity|]. intros H. destruct (Hkey _ H) as (vs & Hh & E).
    apply name_string_inj in E; [|exact HF|exact (proj2 (Hv vs Hh))]. now apply (Hne vs).
Qed.

Lemma renamed_has D D' f st st' ws : 1 <= dL D -> wf_state D st -> (forall vs, has D st vs -> valid D' (f vs)) ->
  map fst (s_comps st') = map fst (renamed D D' f (s_comps st)) -> has D' st' ws -> exists vs, has D st vs /\ ws = f vs.
Proof.
  intros HL W Hv E [V Hin]. rewrite E in Hin. unfold renamed in Hin. rewrite map_map in Hin. apply in_map_iff in Hin.
  destruct Hin as (c & Ec & Hc). cbn [fst] in Ec. pose proof (has_comp D st c HL W Hc) as Hh. exists (values_of_name D (fst c)). split; [exact Hh|].
  apply name_string_inj in Ec; [now symmetry|exact (proj2 (Hv _ Hh))|exact (proj2 V)].
Qed.
Lemma renamed_norm D D' f st cs : renamed D D' f (s_comps st) = cs -> state_norm2 (with_comps st cs) = state_norm2 st.
Proof. intros <-. unfold state_norm2, renamed. cbn [s_comps with_comps]. now rewrite Rsum_map. Qed.

(** A component that is absent has amplitude 0. *)
Lemma amp_absent D st vs : valid D vs -> ~ has D st vs -> amp_of D st vs = RtoC 0.
Proof.
  intros V H. unfold amp_of, amplitude. rewrite (proj2 (dget_none_iff leqb leqb_spec _ _)); [reflexivity|]. intros Hin. apply H. now split.
Qed.

Lemma has_dec D st vs : valid D vs -> has D st vs \/ ~ has D st vs.
Proof.
  intros V. destruct (dget leqb (name_string D vs) (s_comps st)) as [ap|] eqn:E.
  - left. split; auto. apply (dget_some_in leqb leqb_spec) in E. change (name_string D vs) with (fst (name_string D vs, ap)). now apply in_map.
  - right. intros [_ H]. revert H. now apply (dget_none_iff leqb leqb_spec).
Qed.

(** Grouping by an encoding of the key. *)
Lemma group_by_encode {V} (g : list nat -> list nat) (h : V -> list nat) l :
  (forall x y, In x l -> In y l -> g (h x) = g (h y) -> h x = h y) ->
  group_by leqb (fun x => g (h x)) l = map (fun kv => (g (fst kv), snd kv)) (group_by leqb h l).
Proof.
  unfold group_by. induction l as [|x l IH] using rev_ind; intros Hinj; [reflexivity|].
  rewrite !fold_left_app. cbn [fold_left]. rewrite IH by (intros a b Ha Hb; apply Hinj; apply in_or_app; now left).
  clear IH. pose proof (group_by_key_iff leqb leqb_spec h l) as HK. unfold group_by in HK.
  set (d := fold_left _ l []) in *. 
  assert (Hd : forall k, In k (dkeys d) -> g k = g (h x) -> k = h x).
  { intros k Hk E. apply HK in Hk. destruct Hk as (y & Hy & <-). apply Hinj; auto; apply in_or_app; [now left|right; now left]. }
  clearbody d. clear HK Hinj.
  assert (Hg : dget leqb (g (h x)) (map (fun kv => (g (fst kv), snd kv)) d) = dget leqb (h x) d).
  { induction d as [|[k v] r IH]; [reflexivity|]. cbn [map dget fst snd]. 
    assert (E : leqb (g (h x)) (g k) = leqb (h x) k).
    { destruct (leqb (h x) k) eqn:E; [apply leqb_spec in E; subst; now apply leqb_spec|].
      apply not_true_is_false. intros E'. apply leqb_spec in E'. rewrite (Hd k) in E; [|now left|now symmetry].
      rewrite (proj2 (leqb_spec _ _) eq_refl) in E. discriminate. }
    rewrite E. destruct (leqb (h x) k); [reflexivity|]. apply IH. intros k' Hk'. apply Hd. now right. }
  unfold dappend. rewrite Hg. destruct (dget leqb (h x) d) as [v|] eqn:E; [|now rewrite map_app].
  clear Hg E. revert Hd. induction d as [|[k w] r IH]; intros Hd; [reflexivity|]. cbn [map dset fst snd].
  assert (E : leqb (g (h x)) (g k) = leqb (h x) k).
  { destruct (leqb (h x) k) eqn:E; [apply leqb_spec in E; subst; now apply leqb_spec|].
    apply not_true_is_false. intros E'. apply leqb_spec in E'. rewrite (Hd k) in E; [|now left|now symmetry].
    rewrite (proj2 (leqb_spec _ _) eq_refl) in E. discriminate. }
  rewrite E. destruct (leqb (h x) k); cbn [map fst snd]; [reflexivity|]. f_equal. apply IH. intros k' Hk'. apply Hd. now right.
Qed.

(** ** The photon numbers in kept and other channels *)
Lemma nth_valid D vs c : 1 <= dL D -> valid D vs -> nth c vs 0 < dL D.
Proof.
  intros HL [_ HF]. rewrite Forall_forall in HF. destruct (Nat.lt_ge_cases c (length vs)) as [H|H].
  - apply HF. now apply nth_In.
  - rewrite nth_overflow by auto. lia.
Qed.
Lemma readout_lt D vs l : 1 <= dL D -> valid D vs -> Forall (fun v => v < dL D) (readout l vs).
Proof.
  intros HL V. apply Forall_forall. intros v H. unfold readout in H. apply in_map_iff in H. destruct H as (c & <- & _). now apply nth_valid.
Qed.
Lemma readout_length l vs : length (readout l vs) = length l.
Proof. apply map_length. Qed.
Lemma kept_valid D keep vs : 1 <= dL D -> valid D vs -> valid (kept_shape D keep) (readout keep vs).
Proof. intros HL V. split; [apply readout_length|exact (readout_lt D vs keep HL V)]. Qed.

Lemma readout_nth l us vs c : readout l us = readout l vs -> In c l -> nth c us 0 = nth c vs 0.
Proof.
  unfold readout. induction l as [|x l IH]; intros E []; cbn [map] in E; injection E as E1 E2; subst; auto.
Qed.
Lemma kept_other_inj D keep us vs : valid D us -> valid D vs ->
  readout keep us = readout keep vs -> readout (other_channels (dN D) keep) us = readout (other_channels (dN D) keep) vs -> us = vs.
Proof.
  intros [Lu _] [Lv _] E1 E2. apply (nth_ext us vs 0 0); [congruence|]. intros c Hc.
  destruct (existsb (Nat.eqb c) keep) eqn:E.
  - apply existsb_exists in E. destruct E as (x & Hx & Ex). apply Nat.eqb_eq in Ex. subst x. now apply (readout_nth keep).
  - apply (readout_nth (other_channels (dN D) keep)); auto. apply filter_In. split; [apply in_seq; lia|]. now rewrite E.
Qed.

Lemma traced_name_left D vs : traced_name D vs = name_string (Dims (dL D) 0 true) vs.
Proof. reflexivity. Qed.
Lemma traced_name_inj D us vs : Forall (fun v => v < dL D) us -> Forall (fun v => v < dL D) vs ->
  traced_name D us = traced_name D vs -> us = vs.
Proof. rewrite !traced_name_left. intros. now apply (name_string_inj (Dims (dL D) 0 true)). Qed.
Lemma traced_name_length D vs : length (traced_name D vs) = digits_per_channel D * length vs.
Proof.
  unfold traced_name. rewrite (concat_length_const (digits_per_channel D)).
  - rewrite map_length. lia.
  - apply Forall_forall. intros x H. apply in_map_iff in H. destruct H as (v & <- & _). apply pad_length.
Qed.
