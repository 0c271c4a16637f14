(** Proofs about collections of columns: the constructor puts states into groups. *)
From Coq Require Import Reals List Arith Lia Lra Bool Permutation.
From Coquelicot Require Import Complex.
From Verif Require Import Prelude NamesModel NamesSpec NamesProofs FockModel StateModel StateSpec StateProofs
  CollectionModel EvalModel PropMeasure PropPRMeasure OperatorModel ColumnModel ColumnSpec ColumnProofs.
Import ListNotations.

(** ** Dictionaries of dictionaries *)
Definition put (cc : columns) (i : ident) (k : nat) (g : group) : columns :=
  dset leqb i (dset Nat.eqb k g (or_else (dget leqb i cc) [])) cc.
Definition find (cc : columns) (i : ident) (k : nat) : option group :=
  dget Nat.eqb k (or_else (dget leqb i cc) []).
Lemma nat_eqb_spec a b : Nat.eqb a b = true <-> a = b.
Proof. apply Nat.eqb_eq. Qed.
Lemma dset_dset {K V} (keq : K -> K -> bool) (Hk : forall a b, keq a b = true <-> a = b) k (v v' : V) d : dset keq k v' (dset keq k v d) = dset keq k v' d.
Proof.
  induction d as [|[k' w] d IH]; cbn [dset].
  - rewrite (proj2 (Hk k k) eq_refl). reflexivity.
  - destruct (keq k k') eqn:E; cbn [dset]; rewrite E; [reflexivity|]. rewrite IH. reflexivity.
Qed.
Lemma find_put_same cc i k g : find (put cc i k g) i k = Some g.
Proof. unfold find, put. rewrite (dget_dset_same leqb leqb_spec). cbn [or_else]. apply (dget_dset_same Nat.eqb nat_eqb_spec). Qed.
Lemma find_put_other cc i k g j m : (j, m) <> (i, k) -> find (put cc i k g) j m = find cc j m.
Proof.
  intro H. unfold find, put. destruct (leqb j i) eqn:E.
  - apply leqb_spec in E. subst j. rewrite (dget_dset_same leqb leqb_spec). cbn [or_else].
    apply (dget_dset_other Nat.eqb nat_eqb_spec). congruence.
  - rewrite (dget_dset_other leqb leqb_spec); [reflexivity|]. intro Z. subst j. rewrite (proj2 (leqb_spec _ _) eq_refl) in E. discriminate.
Qed.
Lemma put_put cc i k g g' : put (put cc i k g) i k g' = put cc i k g'.
Proof.
  unfold put. rewrite (dget_dset_same leqb leqb_spec). cbn [or_else]. rewrite (dset_dset leqb leqb_spec), (dset_dset Nat.eqb nat_eqb_spec). reflexivity.
Qed.
(** All groups with their labels and numbers. *)
Definition labelled (cc : columns) : list (ident * nat * group) :=
  flat_map (fun x => map (fun kg => (fst x, fst kg, snd kg)) (snd x)) cc.
Lemma all_groups_labelled cc : all_groups cc = map snd (labelled cc).
Proof.
  unfold all_groups, labelled. induction cc as [|x cc IH]; [reflexivity|]. cbn [flat_map]. rewrite map_app, <- IH, map_map. reflexivity.
Qed.
Lemma labelled_put cc i k g : find cc i k = None -> NoDup (dkeys cc) -> Permutation (labelled (put cc i k g)) ((i, k, g) :: labelled cc).
Proof.
  unfold find, put. intros H Hnd. induction cc as [|[j gs] cc IH]; cbn [dget dset] in *.
  - cbn. reflexivity.
  - destruct (leqb i j) eqn:E.
    + apply leqb_spec in E. subst j. cbn [or_else] in *. unfold labelled; cbn [flat_map fst snd]. fold (labelled cc).
      apply (dget_none_iff Nat.eqb nat_eqb_spec) in H. rewrite (dset_fresh Nat.eqb nat_eqb_spec) by exact H. rewrite map_app. cbn [map fst snd].
      rewrite <- app_assoc. cbn [app]. symmetry. apply Permutation_middle.
    + unfold labelled in *; cbn [flat_map fst snd]. inversion Hnd as [|? ? Hn1 Hn2]; subst.
      rewrite (IH H Hn2). symmetry. apply Permutation_middle.
Qed.
Lemma put_keys cc i k g : NoDup (dkeys cc) -> NoDup (dkeys (put cc i k g)).
Proof. intro H. unfold put. apply (dset_NoDup leqb leqb_spec). exact H. Qed.

(** ** States without photon information *)
Lemma place_plain cc st : resolution_of st = None ->
  exists k, place_state (Some cc) st = Some (put cc (s_init st) k (group_of_state st k)) /\ find cc (s_init st) k = None.
Proof.
  intro H. exists (next_number (dkeys (or_else (dget leqb (s_init st) cc) []))). unfold place_state. rewrite H. split; [reflexivity|].
  unfold find. apply (dget_none_iff Nat.eqb nat_eqb_spec). apply next_number_fresh.
Qed.
Lemma columns_of_plain its : Forall (fun it => resolution_of (snd it) = None) its ->
  exists cc ks, columns_of its = Some cc /\ length ks = length its /\
    Permutation (labelled cc) (map (fun sk => (s_init (fst sk), snd sk, group_of_state (fst sk) (snd sk))) (combine (map snd its) ks)) /\
    NoDup (map fst (labelled cc)).
Proof.
  intro H. unfold columns_of.
  assert (G : forall l (cc : columns), Forall (fun st => resolution_of st = None) l -> NoDup (dkeys cc) -> NoDup (map fst (labelled cc)) ->
     (forall i k, find cc i k = None -> ~ In (i, k) (map fst (labelled cc))) ->
     exists cc' ks, fold_left place_state l (Some cc) = Some cc' /\ length ks = length l /\
       Permutation (labelled cc') (labelled cc ++ map (fun sk => (s_init (fst sk), snd sk, group_of_state (fst sk) (snd sk))) (combine l ks)) /\
       NoDup (map fst (labelled cc'))).
  { induction l as [|st l IH]; intros cc Hl Hnd Hnk Hf.
    - exists cc, []. split; [reflexivity|]. split; [reflexivity|]. cbn. rewrite app_nil_r. split; [reflexivity|exact Hnk].
    - cbn [fold_left]. destruct (place_plain cc st (Forall_inv Hl)) as [k [-> Hk]]. set (cc1 := put cc (s_init st) k (group_of_state st k)).
      pose proof (labelled_put cc (s_init st) k (group_of_state st k) Hk Hnd) as Hp. fold cc1 in Hp.
      destruct (IH cc1 (Forall_inv_tail Hl)) as [cc' [ks [E [Hlen [Hperm Hn']]]]].
      + apply put_keys. exact Hnd.
      + apply (Permutation_map fst) in Hp. apply (Permutation_NoDup (Permutation_sym Hp)). cbn [map fst]. constructor; [apply Hf; exact Hk|exact Hnk].
      + intros i m Hm Hin. apply (Permutation_map fst) in Hp. apply (Permutation_in _ Hp) in Hin. cbn [map fst] in Hin. destruct Hin as [Z|Hin].
        * assert (i = s_init st /\ m = k) as [-> ->] by (split; congruence). unfold cc1 in Hm. rewrite find_put_same in Hm. discriminate.
        * apply (Hf i m); [|exact Hin]. unfold cc1 in Hm. rewrite find_put_other in Hm; [exact Hm|]. intro Z. assert (i = s_init st /\ m = k) as [-> ->] by (split; congruence).
          rewrite find_put_same in Hm. discriminate.
      + exists cc', (k :: ks). split; [exact E|]. split; [cbn; lia|]. split; [|exact Hn']. etransitivity; [exact Hperm|].
        cbn [combine map fst snd]. etransitivity; [apply Permutation_app_tail; exact Hp|]. cbn [app]. apply Permutation_middle. }
  destruct (G (map snd its) []) as [cc [ks [E [Hl [Hp Hn]]]]].
  - apply Forall_map. exact H.
  - constructor.
  - constructor.
  - intros i k _ [].
  - exists cc, ks. split; [exact E|]. split; [rewrite Hl, map_length; reflexivity|]. split; [exact Hp|exact Hn].
Qed.

(** ** States with photon information: groups are found again *)
Lemma dset_same {K V} (keq : K -> K -> bool) (Hk : forall a b, keq a b = true <-> a = b) k (v : V) d : dget keq k d = Some v -> dset keq k v d = d.
Proof.
  induction d as [|[k' w] d IH]; cbn [dget dset]; intro H; [discriminate|]. destruct (keq k k') eqn:E.
  - apply Hk in E. subst k'. congruence.
  - rewrite (IH H). reflexivity.
Qed.
Lemma stamp_same id a b g p st : resolution_of st = Some (Resolution (Some id) (Some a) (Some b) (Some g) (Some p) (photon_of st)) -> stamp id a b g p st = st.
Proof.
  intro H. unfold stamp, with_resolution. rewrite (dset_same aux_eqb aux_eqb_spec); [destruct st; reflexivity|].
  unfold resolution_of in H. destruct (dget aux_eqb AuxPhotonResolution (s_aux st)) as [[| |]|]; congruence.
Qed.
Lemma make_stamped id a b g p sts :
  Forall (fun st => resolution_of st = Some (Resolution (Some id) (Some a) (Some b) (Some g) (Some p) (photon_of st))) sts ->
  make_column id a b g p sts = Column id a b g p sts.
Proof.
  intro H. unfold make_column. f_equal. induction H as [|st l Hs _ IH]; [reflexivity|]. cbn [map]. rewrite (stamp_same _ _ _ _ _ _ Hs), IH. reflexivity.
Qed.
Definition sub_column (c : column) (sts : list state) : column := Column (col_id c) (col_amp c) (col_boson c) (col_group c) (col_cum c) sts.
Lemma sub_column_self c : sub_column c (col_states c) = c.
Proof. destruct c. reflexivity. Qed.
Lemma column_of_stamped c st : resolution_of st = Some (Resolution (Some (col_id c)) (Some (col_amp c)) (Some (col_boson c)) (Some (col_group c)) (Some (col_cum c)) (photon_of st)) ->
  column_of [st] = sub_column c [st].
Proof. intro H. unfold column_of. rewrite H. cbn [or_else r_column r_amplitude r_boson r_group r_group_cum]. apply make_stamped. apply Forall_cons; [exact H|constructor]. Qed.
Lemma column_add_stamped c l st : Forall (fun st => resolution_of st = Some (Resolution (Some (col_id c)) (Some (col_amp c)) (Some (col_boson c)) (Some (col_group c)) (Some (col_cum c)) (photon_of st))) (l ++ [st]) ->
  column_add (sub_column c l) st = sub_column c (l ++ [st]).
Proof. intro H. unfold column_add, with_states. cbn [sub_column col_id col_amp col_boson col_group col_cum col_states]. apply make_stamped. exact H. Qed.

Lemma add_to_column_last k c st cols : ~ In k (dkeys cols) -> Forall (fun kc => col_id (snd kc) = fst kc) cols -> col_id c = k ->
  add_to_column k st (cols ++ [(k, c)]) = Some (cols ++ [(k, column_add c st)]).
Proof.
  intros Hk Hc Hid. induction cols as [|[n d] r IH]; cbn [app add_to_column].
  - rewrite Hid, Nat.eqb_refl. reflexivity.
  - pose proof (Forall_inv Hc) as Hd. cbn [fst snd] in Hd. destruct (Nat.eqb_spec (col_id d) k) as [E|E].
    + exfalso. apply Hk. left. cbn [fst]. congruence.
    + rewrite IH; [reflexivity| |exact (Forall_inv_tail Hc)]. intro Z. apply Hk. right. exact Z.
Qed.
Lemma add_to_column_none k st cols : ~ In k (dkeys cols) -> Forall (fun kc => col_id (snd kc) = fst kc) cols -> add_to_column k st cols = None.
Proof.
  intros Hk Hc. induction cols as [|[n d] r IH]; cbn [add_to_column]; [reflexivity|].
  pose proof (Forall_inv Hc) as Hd. cbn [fst snd] in Hd. destruct (Nat.eqb_spec (col_id d) k) as [E|E].
  - exfalso. apply Hk. left. cbn [fst]. congruence.
  - rewrite IH; [reflexivity| |exact (Forall_inv_tail Hc)]. intro Z. apply Hk. right. exact Z.
Qed.

(** The states of one group, labelled [i], put one after the other. *)
Lemma fold_column_rest cc i n p cols k c l sts : 
  ~ In k (dkeys cols) -> Forall (kc_ok n p) cols -> col_id c = k -> col_group c = n -> 
  Forall (fun st => resolution_of st = Some (Resolution (Some (col_id c)) (Some (col_amp c)) (Some (col_boson c)) (Some (col_group c)) (Some (col_cum c)) (photon_of st))) (l ++ sts) ->
  Forall (fun st => s_init st = i) sts ->
  fold_left place_state sts (Some (put cc i n (Group n p (cols ++ [(k, sub_column c l)]))))
  = Some (put cc i n (Group n p (cols ++ [(k, sub_column c (l ++ sts))]))).
Proof.
  intros Hk Hc Hid Hg. revert l. induction sts as [|st sts IH]; intros l Hl Hi; [cbn; rewrite app_nil_r; reflexivity|].
  cbn [fold_left].
  assert (Hst : resolution_of st = Some (Resolution (Some (col_id c)) (Some (col_amp c)) (Some (col_boson c)) (Some (col_group c)) (Some (col_cum c)) (photon_of st))).
  { apply Forall_app in Hl. exact (Forall_inv (proj2 Hl)). }
  assert (E : place_state (Some (put cc i n (Group n p (cols ++ [(k, sub_column c l)])))) st = Some (put cc i n (Group n p (cols ++ [(k, sub_column c (l ++ [st]))])))).
  { unfold place_state. rewrite Hst. cbn [r_group]. rewrite (Forall_inv Hi), Hg.
    pose proof (find_put_same cc i n (Group n p (cols ++ [(k, sub_column c l)]))) as Hf. unfold find in Hf. rewrite Hf.
    unfold group_add_state. rewrite Hst. cbn [r_column g_cols g_id g_cum].
    rewrite Hid, add_to_column_last; [|exact Hk| |exact Hid].
    - rewrite column_add_stamped; [cbn [option_map]; f_equal; apply (put_put cc i n)|].
      apply Forall_app in Hl. destruct Hl as [H1 H2]. apply Forall_app. split; [exact H1|]. apply Forall_cons; [exact Hst|constructor].
    - revert Hc. apply Forall_impl. intros kc [K _]. exact K. }
  rewrite E. rewrite IH.
  - rewrite <- app_assoc. reflexivity.
  - rewrite <- app_assoc. exact Hl.
  - exact (Forall_inv_tail Hi).
Qed.
Lemma dmem_none {V} k (d : list (nat * V)) : ~ In k (dkeys d) -> dmem Nat.eqb k d = false.
Proof. intro H. unfold dmem. rewrite (proj2 (dget_none_iff Nat.eqb nat_eqb_spec k d) H). reflexivity. Qed.

Lemma fold_group_rest cc i n p rest : forall cols,
  NoDup (dkeys (cols ++ rest)) -> Forall (kc_ok n p) (cols ++ rest) -> Forall (fun kc => col_states (snd kc) <> []) rest ->
  Forall (fun kc => Forall (fun st => s_init st = i) (col_states (snd kc))) rest ->
  fold_left place_state (flat_map (fun kc => col_states (snd kc)) rest) (Some (put cc i n (Group n p cols)))
  = Some (put cc i n (Group n p (cols ++ rest))).
Proof.
  induction rest as [|[k c] rest IH]; intros cols Hnd Hok Hne Hi; [cbn; rewrite app_nil_r; reflexivity|].
  cbn [flat_map snd]. rewrite fold_left_app.
  assert (Hnk : ~ In k (dkeys cols)).
  { unfold dkeys in *. rewrite map_app in Hnd. cbn [map fst] in Hnd. apply NoDup_remove_2 in Hnd. intro Z. apply Hnd. apply in_app_iff. left. exact Z. }
  pose proof (proj1 (Forall_app _ _ _) Hok) as [Hc1 Hc2]. destruct (Forall_inv Hc2) as [K1 [K2 [K3 K4]]]. cbn [fst snd] in *.
  pose proof (Forall_inv Hne) as Hs. cbn [snd] in Hs. pose proof (Forall_inv Hi) as Hi1. cbn [snd] in Hi1.
  destruct (col_states c) as [|st sts] eqn:Es; [congruence|]. unfold stamped in K4. rewrite Es in K4.
  cbn [fold_left].
  assert (E : place_state (Some (put cc i n (Group n p cols))) st = Some (put cc i n (Group n p (cols ++ [(k, sub_column c [st])])))).
  { pose proof (Forall_inv K4) as Hst. unfold place_state. rewrite Hst. cbn [r_group]. rewrite (Forall_inv Hi1), K2.
    pose proof (find_put_same cc i n (Group n p cols)) as Hf. unfold find in Hf. rewrite Hf.
    unfold group_add_state. rewrite Hst. cbn [r_column g_cols g_id g_cum]. rewrite add_to_column_none.
    - unfold add_column. cbn [g_cols g_id g_cum]. rewrite K1, dmem_none by exact Hnk. cbn [option_map].
      rewrite (column_of_stamped c st Hst). f_equal. apply put_put.
    - rewrite K1. exact Hnk.
    - revert Hc1. apply Forall_impl. intros kc [K _]. exact K. }
  rewrite E. rewrite (fold_column_rest cc i n p cols k c [st] sts); [|exact Hnk|exact Hc1|exact K1|exact K2|exact K4|exact (Forall_inv_tail Hi1)].
  cbn [app]. rewrite <- Es, sub_column_self. rewrite IH.
  - rewrite <- app_assoc. reflexivity.
  - rewrite <- app_assoc. exact Hnd.
  - rewrite <- app_assoc. exact Hok.
  - exact (Forall_inv_tail Hne).
  - exact (Forall_inv_tail Hi).
Qed.

(** A group that can be written out and read back: columns with states that carry their label. *)
Definition readable (ig : ident * group) : Prop :=
  group_ok (snd ig) /\ g_cols (snd ig) <> [] /\ Forall (fun kc => col_states (snd kc) <> []) (g_cols (snd ig)) /\
  Forall (fun kc => Forall (fun st => s_init st = fst ig) (col_states (snd kc))) (g_cols (snd ig)).
Lemma fold_group cc i g : readable (i, g) -> find cc i (g_id g) = None ->
  fold_left place_state (group_states_of g) (Some cc) = Some (put cc i (g_id g) g).
Proof.
  intros [[Hnd Hok] [Hne [Hns Hi]]] Hf. cbn [fst snd] in *. destruct g as [n p cols]. cbn [g_id g_cum g_cols] in *.
  destruct cols as [|[k c] rest]; [congruence|]. unfold group_states_of, group_columns. cbn [g_cols map snd flat_map]. rewrite fold_left_app.
  destruct (Forall_inv Hok) as [K1 [K2 [K3 K4]]]. cbn [fst snd] in *.
  pose proof (Forall_inv Hns) as Hs. cbn [snd] in Hs. pose proof (Forall_inv Hi) as Hi1. cbn [snd] in Hi1.
  destruct (col_states c) as [|st sts] eqn:Es; [congruence|]. unfold stamped in K4. rewrite Es in K4. cbn [fold_left].
  assert (E : place_state (Some cc) st = Some (put cc i n (Group n p ([] ++ [(k, sub_column c [st])])))).
  { pose proof (Forall_inv K4) as Hst. unfold place_state. rewrite Hst. cbn [r_group]. rewrite (Forall_inv Hi1), K2.
    unfold find in Hf. rewrite Hf. unfold put. do 3 f_equal. unfold group_of_columns. rewrite (column_of_stamped c st Hst). cbn [fold_left or_else].
    unfold add_column, dmem. cbn [g_cols g_id g_cum dget app]. unfold group_with_id. cbn [g_cols g_id g_cum map fst snd].
    unfold col_with_group. cbn [sub_column col_id col_amp col_boson col_group col_cum col_states].
    clear -K1 K2 K3 Hst; destruct c as [cid camp cb cg cc0 cs]; cbn [sub_column col_id col_amp col_boson col_group col_cum col_states] in *; subst; rewrite make_stamped; [reflexivity|]. apply Forall_cons; [exact Hst|constructor]. }
  rewrite E.
  rewrite (fold_column_rest cc i n p [] k c [st] sts); [|intros []|constructor|exact K1|exact K2|exact K4|exact (Forall_inv_tail Hi1)].
  cbn [app]. rewrite <- Es, sub_column_self.
  replace (flat_map col_states (map snd rest)) with (flat_map (fun kc : nat * column => col_states (snd kc)) rest)
    by (clear; induction rest as [|x r IH]; [reflexivity|cbn [flat_map map]; rewrite IH; reflexivity]).
  rewrite (fold_group_rest cc i n p rest [(k, c)]); [reflexivity|exact Hnd|exact Hok|exact (Forall_inv_tail Hns)|exact (Forall_inv_tail Hi)].
Qed.

Definition put_all (gs : list (ident * group)) (cc : columns) : columns :=
  fold_left (fun cc ig => put cc (fst ig) (g_id (snd ig)) (snd ig)) gs cc.
Lemma fold_groups gs : forall cc, Forall readable gs -> NoDup (map (fun ig => (fst ig, g_id (snd ig))) gs) ->
  Forall (fun ig => find cc (fst ig) (g_id (snd ig)) = None) gs ->
  fold_left place_state (flat_map (fun ig => group_states_of (snd ig)) gs) (Some cc) = Some (put_all gs cc).
Proof.
  induction gs as [|[i g] gs IH]; intros cc Hr Hnd Hf; [reflexivity|]. cbn [flat_map snd]. rewrite fold_left_app.
  rewrite (fold_group cc i g (Forall_inv Hr) (Forall_inv Hf)). cbn [map fst snd] in Hnd. inversion Hnd as [|? ? Hn1 Hn2]; subst.
  unfold put_all. cbn [fold_left fst snd]. apply IH; [exact (Forall_inv_tail Hr)|exact Hn2|].
  apply Forall_forall. intros [j h] Hj. cbn [fst snd]. rewrite find_put_other.
  - exact (proj1 (Forall_forall _ _) (Forall_inv_tail Hf) (j, h) Hj).
  - intro Z. apply Hn1. rewrite <- Z. apply in_map_iff. exists (j, h). split; [reflexivity|exact Hj].
Qed.
Lemma put_all_labelled gs : forall cc, NoDup (map (fun ig => (fst ig, g_id (snd ig))) gs) ->
  Forall (fun ig => find cc (fst ig) (g_id (snd ig)) = None) gs -> NoDup (dkeys cc) ->
  Permutation (labelled (put_all gs cc)) (map (fun ig => (fst ig, g_id (snd ig), snd ig)) gs ++ labelled cc).
Proof.
  induction gs as [|[i g] gs IH]; intros cc Hnd Hf Hk; [reflexivity|]. cbn [map fst snd] in *. inversion Hnd as [|? ? Hn1 Hn2]; subst.
  unfold put_all. cbn [fold_left fst snd]. fold (put_all gs (put cc i (g_id g) g)). rewrite IH.
  - rewrite labelled_put; [|exact (Forall_inv Hf)|exact Hk]. cbn [app]. symmetry. apply Permutation_middle.
  - exact Hn2.
  - apply Forall_forall. intros [j h] Hj. cbn [fst snd]. rewrite find_put_other.
    + exact (proj1 (Forall_forall _ _) (Forall_inv_tail Hf) (j, h) Hj).
    + intro Z. apply Hn1. rewrite <- Z. apply in_map_iff. exists (j, h). split; [reflexivity|exact Hj].
  - apply put_keys. exact Hk.
Qed.
(** States written out by groups with different labels or numbers are read back as these groups. *)
Lemma regroup its gs : map snd its = flat_map (fun ig => group_states_of (snd ig)) gs -> Forall readable gs ->
  NoDup (map (fun ig => (fst ig, g_id (snd ig))) gs) ->
  exists cc, columns_of its = Some cc /\ Permutation (labelled cc) (map (fun ig => (fst ig, g_id (snd ig), snd ig)) gs).
Proof.
  intros E Hr Hnd. unfold columns_of. rewrite E. exists (put_all gs []). split.
  - apply fold_groups; [exact Hr|exact Hnd|]. apply Forall_forall. intros ig _. reflexivity.
  - rewrite <- (app_nil_r (map _ gs)). apply (put_all_labelled gs []); [exact Hnd| |constructor]. apply Forall_forall. intros ig _. reflexivity.
Qed.
