(** Proofs about time delays of photon-resolved collections. *)
From Coq Require Import Reals List Arith Lia Lra Bool Permutation.
From Coquelicot Require Import Complex.
From Verif Require Import Prelude NamesModel NamesSpec NamesProofs FockModel FockProofs StateModel StateSpec StateProofs ApplyProofs
  CollectionModel EvalModel PropMeasure PropCollection PropEval PropBridge PropPRMeasure OperatorModel ColumnModel ColumnSpec ColumnProofs PropColumn
  GroupProofs TemporalSpec.
Import ListNotations.

(** ** The groups of a plain collection *)
Definition good_state (D : dims) (eps : R) (ncl : nat) (st : state) : Prop := plain_state D eps ncl st /\ splittable eps ncl st.

Lemma split_plain D eps ncl st id : (0 <= eps)%R -> good_state D eps ncl st ->
  exists g, split_columns eps ncl (group_of_state st id) = Some g /\ g_id g = id /\ g_cum g = s_cum st /\ group_ok g /\ group_fine eps ncl g /\
    Forall (fun c => Forall single (col_states c)) (group_columns g) /\
    Permutation (map column_ess (group_columns g)) (map (fun x => (fst x, 1%R, s_cum st, [snd x])) (choices st)).
Proof.
  intros He [[Hwf [Hno [Hck Hcum]]] Hsp]. pose proof (absent_resolution st Hno) as Hr.
  destruct (split_columns_spec eps ncl (group_of_state st id) He (group_of_state_ok st id Hr) (group_of_state_fine eps ncl st id Hr Hsp))
    as [g [E [E1 [E2 [E3 [E4 [E5 E6]]]]]]].
  exists g. split; [exact E|]. destruct (group_of_state_plain st id Hr) as [c [Eg _]]. rewrite Eg in E1, E2.
  rewrite group_of_state_terms in E6 by exact Hr. repeat (split; [assumption|]). exact E6.
Qed.
Definition split_facts (eps : R) (ncl : nat) (sk : state * nat) (g : group) : Prop :=
  g_id g = snd sk /\ g_cum g = s_cum (fst sk) /\ group_ok g /\ group_fine eps ncl g /\
  Permutation (map column_ess (group_columns g)) (map (fun x => (fst x, 1%R, s_cum (fst sk), [snd x])) (choices (fst sk))).

Lemma plain_groups D eps ncl its : (0 <= eps)%R -> Forall (fun it => good_state D eps ncl (snd it)) its ->
  exists cc sks gs, columns_of its = Some cc /\ split_groups eps ncl (all_groups cc) = Some gs /\
    Permutation (map fst sks) (map snd its) /\ NoDup (map (fun sk => (s_init (fst sk), snd sk)) sks) /\
    Forall2 (split_facts eps ncl) sks gs.
Proof.
  intros He H. destruct (columns_of_plain its) as [cc [ks [E [Hl [Hp Hn]]]]].
  { revert H. apply Forall_impl. intros it [[_ [Hno _]] _]. apply absent_resolution. exact Hno. }
  symmetry in Hp. apply Permutation_sym in Hp. apply Permutation_map_inv in Hp. destruct Hp as [sks [Hm Hp]].
  assert (Hf : Permutation (map fst sks) (map snd its)).
  { apply (Permutation_map fst) in Hp. apply Permutation_sym in Hp. etransitivity; [exact Hp|].
    apply Permutation_refl'. clear -Hl. revert ks Hl. induction its as [|x l IH]; intros [|k ks] Hl; try (cbn in Hl; lia); [reflexivity|].
    cbn [combine map fst snd]. f_equal. apply IH. cbn in Hl. lia. }
  assert (Hg : all_groups cc = map (fun sk => group_of_state (fst sk) (snd sk)) sks) by (rewrite all_groups_labelled, Hm, map_map; reflexivity).
  assert (Hgood : Forall (fun sk => good_state D eps ncl (fst sk)) sks).
  { apply Forall_forall. intros sk Hin. apply (in_map fst) in Hin. apply (Permutation_in _ Hf) in Hin. apply in_map_iff in Hin.
    destruct Hin as [it [Hit Hin]]. rewrite <- Hit. exact (proj1 (Forall_forall _ _) H it Hin). }
  assert (Hs : exists gs, split_groups eps ncl (all_groups cc) = Some gs /\ Forall2 (split_facts eps ncl) sks gs).
  { rewrite Hg. unfold split_groups. clear -Hgood He. induction sks as [|[st k] sks IH].
    - exists []. split; [reflexivity|constructor].
    - destruct (IH (Forall_inv_tail Hgood)) as [gs [E F]]. destruct (split_plain D eps ncl st k He (Forall_inv Hgood)) as [g [E1 [E2 [E3 [E4 [E5 [_ E6]]]]]]].
      exists (g :: gs). split.
      + cbn [map option_list fst snd]. rewrite E1, E. reflexivity.
      + constructor; [|exact F]. split; [exact E2|]. split; [exact E3|]. split; [exact E4|]. split; [exact E5|]. exact E6. }
  destruct Hs as [gs [Hs1 Hs2]]. exists cc, sks, gs. split; [exact E|]. split; [exact Hs1|]. split; [exact Hf|]. split; [|exact Hs2].
  rewrite Hm, map_map in Hn. cbn [fst] in Hn. exact Hn.
Qed.

(** ** The columns of a split plain state *)
Definition col_vals (D : dims) (c : column) : values := match col_states c with [s] => first_values D s | _ => [] end.
(** The column stands for one component of [st]. *)
Definition col_reads (D : dims) (eps : R) (ncl : nat) (st : state) (c : column) : Prop :=
  exists s vs a p, col_states c = [s] /\ valid D vs /\ s_comps s = [(name_string D vs, (a, p))] /\
    s_init s = s_init st /\ s_classical s = s_classical st /\ s_cum s = s_cum st /\ photon_of s = None /\ s_results s = s_results st /\
    check_state eps ncl s = true /\ col_boson c = 1%R /\ col_cum c = s_cum st /\ stamped c /\ col_vals D c = vs.
Lemma choice_reads D eps ncl st x : (0 <= eps)%R -> good_state D eps ncl st -> In x (choices st) ->
  exists vs a p, valid D vs /\ s_comps (fst (snd x)) = [(name_string D vs, (a, p))] /\
    s_init (fst (snd x)) = s_init st /\ s_classical (fst (snd x)) = s_classical st /\ s_cum (fst (snd x)) = s_cum st /\ snd (snd x) = None /\
    s_results (fst (snd x)) = s_results st /\ check_state eps ncl (fst (snd x)) = true /\
    In (name_string D vs, fst x) (weighted_components st).
Proof.
  intros He [[[Hnd Hwf] [Hno [Hck Hcum]]] Hsp] Hx. pose proof (absent_resolution st Hno) as Hr.
  assert (Hph : photon_of st = None) by (unfold photon_of; rewrite Hr; reflexivity).
  unfold choices in Hx. unfold weighted_components. destruct (s_comps st) as [|[n1 [a1 p1]] [|c2 cs]] eqn:E.
  - destruct Hx.
  - destruct Hx as [<-|[]]. cbn [fst snd core_of]. destruct (Hwf n1) as [vs [Hv Hn]]; [left; reflexivity|]. subst n1.
    exists vs, a1, p1. split; [exact Hv|]. split; [exact E|]. repeat (split; [reflexivity || assumption|]). left. reflexivity.
  - apply in_map_iff in Hx. destruct Hx as [c [<- Hin]]. cbn [fst snd].
    destruct (Hwf (fst c)) as [vs [Hv Hn]]; [apply in_map; exact Hin|].
    exists vs, (RtoC 1), 1%R. split; [exact Hv|]. cbn [core_with core_of fst snd with_comps s_comps s_init s_classical s_cum s_results]. rewrite Hn.
    repeat (split; [reflexivity || assumption|]). split.
    + apply (check_unit eps ncl st (name_string D vs) He Hck).
    + apply in_map_iff. exists c. split; [rewrite Hn; reflexivity|exact Hin].
Qed.
Lemma choices_names D st : wf_state D st -> map (fun x => (first_values D (fst (snd x)), fst x)) (choices st) = map (fun x => (values_of_name D (fst x), snd x)) (weighted_components st).
Proof.
  intros [Hnd Hwf]. unfold choices, weighted_components. destruct (s_comps st) as [|[n1 [a1 p1]] [|c2 cs]] eqn:E; [reflexivity| |].
  - cbn [map fst snd core_of]. unfold first_values. cbn [drop_resolution with_aux s_comps]. rewrite E. reflexivity.
  - rewrite !map_map. apply map_ext. intro c. reflexivity.
Qed.
Lemma split_reads D eps ncl sk g : (0 <= eps)%R -> good_state D eps ncl (fst sk) -> split_facts eps ncl sk g ->
  Forall (col_reads D eps ncl (fst sk)) (group_columns g) /\
  Permutation (map (fun c => (col_vals D c, col_amp c)) (group_columns g)) (map (fun x => (values_of_name D (fst x), snd x)) (weighted_components (fst sk))).
Proof.
  intros He Hgood [Hid [Hc [Hok [Hf Hp]]]]. split.
  - apply Forall_forall. intros c Hin. assert (Hin' := in_map column_ess _ _ Hin). apply (Permutation_in _ Hp) in Hin'. apply in_map_iff in Hin'.
    destruct Hin' as [x [Hx1 Hx2]]. destruct (choice_reads D eps ncl (fst sk) x He Hgood Hx2) as [vs [a [p [K1 [K2 [K3 [K4 [K5 [K6 [K7 [K8 _]]]]]]]]]]].
    pose proof (f_equal snd Hx1) as Hs. unfold column_ess in Hs; cbn [snd] in Hs.
    destruct (col_states c) as [|s [|? ?]] eqn:E; try discriminate. cbn [map] in Hs. assert (Hs' : snd x = core_of s) by congruence. clear Hs.
    rewrite Hs' in *. cbn [core_of fst snd] in *.
    assert (Hcs : s_comps s = [(name_string D vs, (a, p))]) by exact K2.
    exists s, vs, a, p. split; [exact E|]. split; [exact K1|]. split; [exact K2|]. split; [exact K3|]. split; [exact K4|]. split; [exact K5|]. split; [exact K6|].
    split; [exact K7|]. split; [exact K8|].
    split; [exact (eq_sym (f_equal (fun e : ess => snd (fst (fst e))) Hx1))|]. split; [exact (eq_sym (f_equal (fun e : ess => snd (fst e)) Hx1))|].
    unfold group_columns in Hin. apply in_map_iff in Hin. destruct Hin as [kc [Hkc Hin]]. subst c.
    split; [exact (proj2 (proj2 (proj2 (proj1 (Forall_forall _ _) (proj2 Hok) kc Hin))))|]. unfold col_vals. rewrite E. apply (first_values_one D s vs a p K1 Hcs).
  - rewrite <- choices_names by apply Hgood. apply (Permutation_map (fun e : ess => (match snd e with [k] => core_values D k | _ => [] end, ess_amp e))) in Hp.
    rewrite !map_map in Hp. etransitivity; [|etransitivity; [exact Hp|]].
    + apply Permutation_refl'. apply map_ext. intro c. unfold col_vals, column_ess, ess_amp; cbn [snd fst]. f_equal. destruct (col_states c) as [|s [|? ?]]; reflexivity.
    + apply Permutation_refl'. apply map_ext. intros [z k]. reflexivity.
Qed.

(** ** Numbers *)
Lemma gauss_range t w : (0 < gauss t w <= 1)%R.
Proof.
  unfold gauss. split; [apply exp_pos|]. apply Rle_trans with (exp 0); [|rewrite exp_0; lra].
  assert (Hl : (0 < ln 2)%R) by (rewrite <- ln_1; apply ln_increasing; lra).
  assert (Hq : (0 <= (t / w) ^ 2)%R) by (rewrite <- Rsqr_pow2; apply Rle_0_sqr).
  assert (Hz : (- 1 * ln 2 * (t / w) ^ 2 <= 0)%R) by (pose proof (Rmult_le_pos _ _ (Rlt_le _ _ Hl) Hq); lra).
  destruct Hz as [Hz|Hz]; [left; apply exp_increasing; exact Hz|right; rewrite Hz; reflexivity].
Qed.
Lemma set_cumulative_in st p : (0 <= p <= 1)%R -> set_cumulative st p = Some (with_cum st p).
Proof. intros [H1 H2]. unfold set_cumulative. destruct (Rle_dec 0 p); [|contradiction]. destruct (Rle_dec p 1); [reflexivity|contradiction]. Qed.

(** ** Groups from lists of columns *)
Lemma fold_add_columns cs : forall g, NoDup (dkeys (g_cols g) ++ map col_id cs) ->
  fold_left (fun g c => add_column g c (Some (col_id c))) cs g = Group (g_id g) (g_cum g) (g_cols g ++ map (fun c => (col_id c, c)) cs).
Proof.
  induction cs as [|c cs IH]; intros g Hnd; [cbn; rewrite app_nil_r; destruct g; reflexivity|]. cbn [fold_left map].
  unfold add_column at 2. rewrite dmem_none.
  - rewrite IH; cbn [g_cols g_id g_cum].
    + rewrite <- app_assoc. reflexivity.
    + unfold dkeys. rewrite map_app, <- app_assoc. exact Hnd.
  - cbn [map] in Hnd. apply NoDup_remove_2 in Hnd. intro Z. apply Hnd. apply in_app_iff. left. exact Z.
Qed.
Lemma group_of_columns_spec c cs n : NoDup (map col_id (c :: cs)) ->
  group_of_columns (c :: cs) (Some n) = Group n (col_cum c) (map (fun c => (col_id c, col_with_group c n)) (c :: cs)).
Proof.
  intro H. unfold group_of_columns. rewrite fold_add_columns by exact H. unfold group_with_id. cbn [g_cols g_cum or_else app]. rewrite map_map. reflexivity.
Qed.

(** ** The quick time delay *)
Lemma masked_kept keep vs : masked keep vs = kept keep vs.
Proof.
  unfold masked, kept. assert (G : forall k vs' pre, vs = pre ++ vs' -> length pre = k ->
     map (fun cv => if keep (fst cv) then snd cv else 0) (combine (seq k (length vs')) vs') = map (fun i => if keep i then nth i vs 0 else 0) (seq k (length vs'))).
  { intros k vs'. revert k. induction vs' as [|v vs' IH]; intros k pre E Hk; [reflexivity|]. cbn [length seq combine map fst snd]. f_equal.
    - rewrite E, app_nth2, Hk, Nat.sub_diag by lia. reflexivity.
    - apply (IH (S k) (pre ++ [v])); [rewrite <- app_assoc; exact E|rewrite app_length; cbn; lia]. }
  apply (G 0 vs []); reflexivity.
Qed.
Lemma kept_valid D keep vs : valid D vs -> valid D (kept keep vs).
Proof.
  intros [Hl Hv]. split; [unfold kept; rewrite map_length, seq_length; exact Hl|]. unfold kept. apply Forall_map. apply Forall_forall. intros i Hi.
  apply in_seq in Hi. assert (Hn := proj1 (Forall_nth _ _) Hv i 0 ltac:(lia)). cbn in Hn. destruct (keep i); lia.
Qed.
Lemma part_state_spec D eps ncl sep keep t st vs a p : valid D vs -> s_comps st = [(name_string D vs, (a, p))] -> check_state eps ncl st = true ->
  (0 <= s_cum st * sep <= 1)%R ->
  part_state D eps ncl sep keep t st = Some (with_cum (with_photon (with_comps st [(name_string D (kept keep vs), (a, Cnorm2 a))]) (t, 1%R)) (s_cum st * sep)).
Proof.
  intros Hv Hs Hc Hp. unfold part_state, copy_state, make_state. rewrite Hc. unfold masked_components. rewrite Hs. cbn [map option_list fst snd].
  rewrite (values_of_name_string D vs (proj2 Hv)), masked_kept, (name_of_values_valid D _ (proj2 (kept_valid D keep vs Hv))). cbn [option_map].
  rewrite set_cumulative_in by exact Hp. reflexivity.
Qed.
Lemma with_resolution_twice st r r' : with_resolution (with_resolution st r') r = with_resolution st r.
Proof. unfold with_resolution. destruct st. cbn. rewrite (dset_dset aux_eqb aux_eqb_spec). reflexivity. Qed.
Lemma stamp_stamp id a b g p id' a' b' g' p' st : stamp id a b g p (stamp id' a' b' g' p' st) = stamp id a b g p st.
Proof. unfold stamp at 1. rewrite photon_stamp. unfold stamp. apply with_resolution_twice. Qed.
Lemma make_group_again id a b g p n sts : col_with_group (make_column id a b g p sts) n = make_column id a b n p sts.
Proof. unfold col_with_group, make_column; cbn [col_id col_amp col_boson col_cum col_states]. f_equal. rewrite map_map. apply map_ext. intro. apply stamp_stamp. Qed.
Lemma make_cum_again id a b g p q sts : col_with_cum (make_column id a b g p sts) q = make_column id a b g q sts.
Proof. unfold col_with_cum, make_column; cbn [col_id col_amp col_boson col_group col_states]. f_equal. rewrite map_map. apply map_ext. intro. apply stamp_stamp. Qed.

Definition overlap_result (n : nat) (ov : R) (c : column) : column :=
  make_column (col_id c) (col_amp c) (col_boson c) n (col_cum c * ov)
    (map (fun s => with_photon (with_cum s (s_cum s * ov)) (0%R, 1%R)) (col_states c)).
Definition part_result (D : dims) (sep : R) (keep : nat -> bool) (t : R) (s : state) : state :=
  with_cum (with_photon (with_comps s [(name_string D (kept keep (first_values D s)), (first_amp s, Cnorm2 (first_amp s)))]) (t, 1%R)) (s_cum s * sep).
Definition separated_result (D : dims) (chs : list nat) (n : nat) (sep : R) (c : column) : column :=
  make_column (col_id c) (col_amp c) (col_boson c) n (col_cum c * sep)
    (flat_map (fun s => [part_result D sep (fun ch => negb (channel_in chs ch)) (-100) s; part_result D sep (channel_in chs) 100 s]) (col_states c)).

Lemma overlap_column_spec D eps ncl st ov c n : (0 <= s_cum st <= 1)%R -> (0 <= ov <= 1)%R -> col_reads D eps ncl st c ->
  exists c', overlap_column eps ncl ov c = Some c' /\ col_id c' = col_id c /\ col_cum c' = (col_cum c * ov)%R /\ col_with_group c' n = overlap_result n ov c.
Proof.
  intros Hc Ho [s [vs [a [p [K1 [K2 [K3 [K4 [K5 [K6 [K7 [K8 [K9 _]]]]]]]]]]]]]. unfold overlap_column, overlap_result. rewrite K1. cbn [map option_list].
  unfold copy_state, make_state. rewrite K9. cbn [map option_list]. rewrite set_cumulative_in by (rewrite K6; nra). cbn [option_map].
  eexists. split; [reflexivity|]. split; [reflexivity|]. split; [reflexivity|]. apply make_group_again.
Qed.
Lemma separated_column_spec D eps ncl chs st sep c n : (0 <= s_cum st <= 1)%R -> (0 <= sep <= 1)%R -> col_reads D eps ncl st c ->
  exists c', separated_column D eps ncl sep chs c = Some c' /\ col_id c' = col_id c /\ col_cum c' = (col_cum c * sep)%R /\ col_with_group c' n = separated_result D chs n sep c.
Proof.
  intros Hc Ho [s [vs [a [p [K1 [K2 [K3 [K4 [K5 [K6 [K7 [K8 [K9 [K10 [K11 [K12 _]]]]]]]]]]]]]]]]. unfold separated_column, separated_result. rewrite K1. cbn [flat_map app].
  assert (Hr : (0 <= s_cum s * sep <= 1)%R) by (rewrite K6; nra).
  assert (Hfv : first_values D s = vs) by exact (first_values_one D s vs a p K2 K3). assert (Hfa : first_amp s = a) by (unfold first_amp; rewrite K3; reflexivity).
  rewrite !(part_state_spec D eps ncl sep _ _ s vs a p K2 K3 K9 Hr). cbn [option_list]. unfold stamped in K12. rewrite K1 in K12. pose proof (Forall_inv K12) as Hst.
  assert (E : column_of [with_cum (with_photon (with_comps s [(name_string D (kept (fun ch => negb (existsb (Nat.eqb ch) chs)) vs), (a, Cnorm2 a))]) (-100, 1)%R) (s_cum s * sep);
                         with_cum (with_photon (with_comps s [(name_string D (kept (fun ch => existsb (Nat.eqb ch) chs) vs), (a, Cnorm2 a))]) (100, 1)%R) (s_cum s * sep)]
    = make_column (col_id c) (col_amp c) (col_boson c) (col_group c) (col_cum c)
       [with_cum (with_photon (with_comps s [(name_string D (kept (fun ch => negb (existsb (Nat.eqb ch) chs)) vs), (a, Cnorm2 a))]) (-100, 1)%R) (s_cum s * sep);
        with_cum (with_photon (with_comps s [(name_string D (kept (fun ch => existsb (Nat.eqb ch) chs) vs), (a, Cnorm2 a))]) (100, 1)%R) (s_cum s * sep)]).
  { unfold column_of.
    assert (Q : forall cs i q, resolution_of (with_cum (with_photon (with_comps s cs) i) q) = Some (Resolution (Some (col_id c)) (Some (col_amp c)) (Some (col_boson c)) (Some (col_group c)) (Some (col_cum c)) (Some i))).
    { intros cs i q. change (resolution_of (with_cum (with_photon (with_comps s cs) i) q)) with (resolution_of (with_photon (with_comps s cs) i)). unfold with_photon.
      change (resolution_of (with_comps s cs)) with (resolution_of s). rewrite Hst, resolution_with. reflexivity. }
    rewrite Q. reflexivity. }
  rewrite E, make_cum_again. eexists. split; [reflexivity|]. split; [reflexivity|]. split; [reflexivity|]. rewrite make_group_again. f_equal.
  unfold part_result. rewrite Hfv, Hfa. reflexivity.
Qed.

Lemma option_list_build {A B} (f : A -> option B) (P : A -> B -> Prop) l : (forall x, In x l -> exists y, f x = Some y /\ P x y) ->
  exists ys, option_list (map f l) = Some ys /\ Forall2 P l ys.
Proof.
  induction l as [|x l IH]; intro H; [exists []; split; [reflexivity|constructor]|]. destruct (H x (or_introl eq_refl)) as [y [E Hy]].
  destruct IH as [ys [E' Hys]]; [intros z Hz; apply H; right; exact Hz|]. exists (y :: ys). cbn [map option_list]. rewrite E, E'. split; [reflexivity|]. constructor; assumption.
Qed.
Lemma Forall2_map_eq {A B C} (P : A -> B -> Prop) (f : B -> C) (h : A -> C) l l' : Forall2 P l l' -> (forall x y, P x y -> f y = h x) -> map f l' = map h l.
Proof. intros H E. induction H as [|x y l l' Hxy _ IH]; [reflexivity|]. cbn [map]. rewrite (E x y Hxy), IH. reflexivity. Qed.

Lemma group_keys g : group_ok g -> map col_id (group_columns g) = dkeys (g_cols g).
Proof.
  intros [_ H]. unfold group_columns, dkeys. rewrite map_map. apply map_ext_in. intros kc Hin. exact (proj1 (proj1 (Forall_forall _ _) H kc Hin)).
Qed.
Lemma rebuilt (F : column -> option column) (Rz : column -> column) (q : R) g n :
  group_ok g -> group_columns g <> [] -> 
  (forall c, In c (group_columns g) -> exists c', F c = Some c' /\ col_id c' = col_id c /\ col_cum c' = (col_cum c * q)%R /\ col_with_group c' n = Rz c) ->
  exists cs, option_list (map F (group_columns g)) = Some cs /\
    group_of_columns cs (Some n) = Group n (g_cum g * q) (map (fun kc => (fst kc, Rz (snd kc))) (g_cols g)).
Proof.
  intros Hok Hne HF. destruct (option_list_build F (fun c c' => col_id c' = col_id c /\ col_cum c' = (col_cum c * q)%R /\ col_with_group c' n = Rz c) (group_columns g)) as [cs [E HP]].
  { intros c Hc. destruct (HF c Hc) as [c' [E H]]. exists c'. split; assumption. }
  exists cs. split; [exact E|].
  assert (Hids : map col_id cs = dkeys (g_cols g)) by (rewrite <- (group_keys g Hok); apply (Forall2_map_eq _ col_id col_id _ _ HP); intros x y H; exact (proj1 H)).
  assert (Hall : map (fun c => (col_id c, col_with_group c n)) cs = map (fun kc => (fst kc, Rz (snd kc))) (g_cols g)).
  { rewrite (Forall2_map_eq _ (fun c => (col_id c, col_with_group c n)) (fun c => (col_id c, Rz c)) _ _ HP).
    - unfold group_columns. rewrite map_map. apply map_ext_in. intros kc Hkc. rewrite (proj1 (proj1 (Forall_forall _ _) (proj2 Hok) kc Hkc)). reflexivity.
    - intros x y [H1 [H2 H3]]. rewrite H1, H3. reflexivity. }
  destruct cs as [|c cs]; [inversion HP as [Z|]; exfalso; apply Hne; symmetry; exact Z|].
  rewrite group_of_columns_spec.
  - rewrite Hall. f_equal. unfold group_columns in HP. destruct (g_cols g) as [|[k0 c0] r] eqn:Eg; cbn [map snd] in HP; inversion HP; subst.
    destruct H2 as [_ [H2 _]]. rewrite H2. destruct Hok as [_ Hok]. rewrite Eg in Hok. pose proof (proj1 (proj2 (proj2 (Forall_inv Hok)))) as Zc. cbn [snd] in Zc. rewrite Zc. reflexivity.
  - rewrite Hids. exact (proj1 Hok).
Qed.
Definition quick_groups (D : dims) (chs : list nat) (ov : R) (k : nat) (g : group) : list group :=
  [Group (k + 1) (g_cum g * ov) (map (fun kc => (fst kc, overlap_result (k + 1) ov (snd kc))) (g_cols g));
   Group (k + 2) (g_cum g * (1 - ov)) (map (fun kc => (fst kc, separated_result D chs (k + 2) (1 - ov) (snd kc))) (g_cols g))].
Lemma choices_nonempty st : s_comps st <> [] -> choices st <> [].
Proof. unfold choices. destruct (s_comps st) as [|x [|y l]]; [congruence|discriminate|discriminate]. Qed.
Lemma split_facts_nonempty D eps ncl sk g : good_state D eps ncl (fst sk) -> split_facts eps ncl sk g -> group_columns g <> [].
Proof.
  intros [_ [_ [Hne _]]] [_ [_ [_ [_ Hp]]]] Z. rewrite Z in Hp. cbn [map] in Hp. apply Permutation_nil in Hp. apply map_eq_nil in Hp. exact (choices_nonempty _ Hne Hp).
Qed.
Lemma quick_group_spec D eps ncl chs d w k sk g t : (0 <= eps)%R -> good_state D eps ncl (fst sk) -> split_facts eps ncl sk g ->
  delay_of d (fst sk) = Some t ->
  quick_group D eps ncl chs d w k g = Some (quick_groups D chs (gauss t w) k g).
Proof.
  intros He Hgood Hsf Hd. destruct (split_reads D eps ncl sk g He Hgood Hsf) as [Hr _]. pose proof (split_facts_nonempty D eps ncl sk g Hgood Hsf) as Hne.
  destruct Hsf as [Hid [Hc [Hok _]]]. pose proof (gauss_range t w) as Hov. assert (Hcum : (0 <= s_cum (fst sk) <= 1)%R) by apply Hgood.
  unfold quick_group. unfold group_states_of. destruct (group_columns g) as [|c0 cs0] eqn:Eg; [congruence|]. cbn [flat_map].
  destruct (Forall_inv Hr) as [s [vs [a [p [K1 [K2 [K3 [K4 [K5 _]]]]]]]]]. rewrite K1. cbn [app].
  assert (Hds : delay_of d s = Some t) by (destruct d; cbn in *; [exact Hd|rewrite K5; exact Hd]). rewrite Hds. rewrite <- Eg in *.
  destruct (rebuilt (overlap_column eps ncl (gauss t w)) (overlap_result (k + 1) (gauss t w)) (gauss t w) g (k + 1) Hok Hne) as [cs1 [E1 F1]].
  { intros c Hcin. apply (overlap_column_spec D eps ncl (fst sk)); [exact Hcum|lra|exact (proj1 (Forall_forall _ _) Hr c Hcin)]. }
  destruct (rebuilt (separated_column D eps ncl (1 - gauss t w) chs) (separated_result D chs (k + 2) (1 - gauss t w)) (1 - gauss t w) g (k + 2) Hok Hne) as [cs2 [E2 F2]].
  { intros c Hcin. apply (separated_column_spec D eps ncl chs (fst sk)); [exact Hcum|lra|exact (proj1 (Forall_forall _ _) Hr c Hcin)]. }
  rewrite E1, E2, F1, F2. reflexivity.
Qed.

(** ** What the states show *)
Lemma column_ids D eps ncl sk g : (0 <= eps)%R -> good_state D eps ncl (fst sk) -> split_facts eps ncl sk g ->
  exists ids, column_numbers (fst sk) ids /\
    Permutation (map (fun c => (col_id c, (col_vals D c, col_amp c))) (group_columns g))
                (map (fun x => (fst x, (values_of_name D (fst (snd x)), snd (snd x)))) (numbered ids (fst sk))).
Proof.
  intros He Hgood Hsf. destruct (split_reads D eps ncl sk g He Hgood Hsf) as [_ Hp]. destruct Hsf as [_ [_ [Hok _]]].
  apply Permutation_sym in Hp. apply Permutation_map_inv in Hp. destruct Hp as [cols [Hm Hp]]. exists (map col_id cols).
  assert (Hl : length (map col_id cols) = length (weighted_components (fst sk))).
  { rewrite map_length. apply (f_equal (@length _)) in Hm. rewrite !map_length in Hm. symmetry. exact Hm. }
  split; [split; [exact Hl|]|].
  - apply (Permutation_map col_id) in Hp. apply (Permutation_NoDup Hp). rewrite (group_keys g Hok). exact (proj1 Hok).
  - etransitivity; [apply (Permutation_map (fun c => (col_id c, (col_vals D c, col_amp c)))); exact Hp|]. apply Permutation_refl'.
    unfold numbered. clear -Hm. revert Hm. generalize (weighted_components (fst sk)). induction cols as [|c cols IH]; intros [|x l] Hm; try discriminate; [reflexivity|].
    cbn [map combine fst snd]. f_equal; [f_equal; symmetry; exact (f_equal (hd (col_vals D c, col_amp c)) Hm)|]. apply IH. exact (f_equal (@tl _) Hm).
Qed.
Lemma shows_make D id a b g p s i q vs : photon_of s = Some i ->
  s_comps s = [(name_string D vs, q)] -> valid D vs ->
  shows D (stamp id a b g p s) (Part (s_init s) (s_classical s) (s_cum s) g p id a b i vs).
Proof.
  intros Hph Hc Hv. unfold shows. cbn [pt_label pt_classical pt_cum pt_photons pt_column pt_amplitude pt_boson pt_group pt_weight pt_timing].
  split; [reflexivity|]. split; [reflexivity|]. split; [reflexivity|]. split; [destruct q as [q1 q2]; exists q1, q2; exact Hc|]. split; [exact Hv|].
  unfold stamp, with_resolution. cbn [s_aux with_aux]. rewrite (dget_dset_same aux_eqb aux_eqb_spec), Hph. reflexivity.
Qed.
Lemma photon_with st i : photon_of (with_photon st i) = Some i.
Proof. unfold with_photon, photon_of. rewrite resolution_with. reflexivity. Qed.
Lemma overlap_shows D eps ncl st ov n c : col_reads D eps ncl st c ->
  Forall2 (shows D) (col_states (overlap_result n ov c)) [Part (s_init st) (s_classical st) (s_cum st * ov) n (s_cum st * ov) (col_id c) (col_amp c) 1 (0%R, 1%R) (col_vals D c)].
Proof.
  intros [s [vs [a [p [K1 [K2 [K3 [K4 [K5 [K6 [K7 [K8 [K9 [K10 [K11 [K12 K13]]]]]]]]]]]]]]]]. unfold overlap_result, make_column; cbn [col_states]. rewrite K1. cbn [map].
  constructor; [|constructor]. rewrite <- K4, <- K5, K10, K11, K13, <- K6.
  apply (shows_make D (col_id c) (col_amp c) 1 n (s_cum s * ov) (with_photon (with_cum s (s_cum s * ov)) (0%R, 1%R)) (0%R, 1%R) (a, p) vs); [apply photon_with|exact K3|exact K2].
Qed.
Lemma separated_shows D eps ncl chs st sep n c : col_reads D eps ncl st c ->
  Forall2 (shows D) (col_states (separated_result D chs n sep c))
    [Part (s_init st) (s_classical st) (s_cum st * sep) n (s_cum st * sep) (col_id c) (col_amp c) 1 (-100, 1)%R (kept (fun ch => negb (channel_in chs ch)) (col_vals D c));
     Part (s_init st) (s_classical st) (s_cum st * sep) n (s_cum st * sep) (col_id c) (col_amp c) 1 (100, 1)%R (kept (channel_in chs) (col_vals D c))].
Proof.
  intros [s [vs [a [p [K1 [K2 [K3 [K4 [K5 [K6 [K7 [K8 [K9 [K10 [K11 [K12 K13]]]]]]]]]]]]]]]]. unfold separated_result, make_column; cbn [col_states]. rewrite K1. cbn [map flat_map app].
  assert (Hfv : first_values D s = vs) by exact (first_values_one D s vs a p K2 K3).
  rewrite <- K4, <- K5, K10, K11, K13, <- K6.
  assert (G : forall keep t, shows D (stamp (col_id c) (col_amp c) 1 n (s_cum s * sep) (part_result D sep keep t s))
     (Part (s_init s) (s_classical s) (s_cum s * sep) n (s_cum s * sep) (col_id c) (col_amp c) 1 (t, 1%R) (kept keep vs))).
  { intros keep t. unfold part_result. rewrite Hfv.
    apply (shows_make D (col_id c) (col_amp c) 1 n (s_cum s * sep) (with_cum (with_photon (with_comps s [(name_string D (kept keep vs), (first_amp s, Cnorm2 (first_amp s)))]) (t, 1%R)) (s_cum s * sep)) (t, 1%R) (first_amp s, Cnorm2 (first_amp s)) (kept keep vs)).
    - apply (photon_with (with_comps s [(name_string D (kept keep vs), (first_amp s, Cnorm2 (first_amp s)))])).
    - reflexivity.
    - apply kept_valid. exact K2. }
  constructor; [apply G|]. constructor; [apply G|constructor].
Qed.
Lemma Forall2_flat {A B C} (P : B -> C -> Prop) (f : A -> list B) (h : A -> list C) l : (forall x, In x l -> Forall2 P (f x) (h x)) -> Forall2 P (flat_map f l) (flat_map h l).
Proof.
  induction l as [|x l IH]; intro H; [constructor|]. cbn [flat_map]. apply Forall2_app; [apply H; left; reflexivity|apply IH; intros; apply H; right; assumption].
Qed.
Lemma flat_map_perm {A B} (f : A -> list B) l l' : Permutation l l' -> Permutation (flat_map f l) (flat_map f l').
Proof. apply Permutation_flat_map. Qed.
Lemma flat_map_app_perm {A B} (f h : A -> list B) l : Permutation (flat_map f l ++ flat_map h l) (flat_map (fun x => f x ++ h x) l).
Proof.
  induction l as [|x l IH]; [constructor|]. cbn [flat_map]. rewrite <- IH, <- !app_assoc. apply Permutation_app_head. rewrite !app_assoc. apply Permutation_app_tail.
  apply Permutation_app_comm.
Qed.
Lemma group_states_map n q f (cols : list (nat * column)) : group_states_of (Group n q (map (fun kc => (fst kc, f (snd kc))) cols)) = flat_map (fun c => col_states (f c)) (map snd cols).
Proof. unfold group_states_of, group_columns. cbn [g_cols]. rewrite map_map. cbn [snd]. induction cols as [|x l IH]; [reflexivity|]. cbn [map flat_map]. rewrite IH. reflexivity. Qed.
Lemma quick_group_shows D eps ncl chs ov n sk g : (0 <= eps)%R -> good_state D eps ncl (fst sk) -> split_facts eps ncl sk g ->
  exists ids pts, column_numbers (fst sk) ids /\ Forall2 (shows D) (flat_map group_states_of (quick_groups D chs ov (2 * n) g)) pts /\
    Permutation pts (flat_map (quick_parts D chs ov n (fst sk)) (numbered ids (fst sk))).
Proof.
  intros He Hgood Hsf. destruct (split_reads D eps ncl sk g He Hgood Hsf) as [Hr _]. destruct (column_ids D eps ncl sk g He Hgood Hsf) as [ids [Hids Hp]].
  set (st := fst sk) in *.
  set (f1 := fun c : nat * (values * C) => [Part (s_init st) (s_classical st) (s_cum st * ov) (2 * n + 1) (s_cum st * ov) (fst c) (snd (snd c)) 1 (0%R, 1%R) (fst (snd c))]).
  set (f2 := fun c : nat * (values * C) => [Part (s_init st) (s_classical st) (s_cum st * (1 - ov)) (2 * n + 2) (s_cum st * (1 - ov)) (fst c) (snd (snd c)) 1 (-100, 1)%R (kept (fun ch => negb (channel_in chs ch)) (fst (snd c)));
     Part (s_init st) (s_classical st) (s_cum st * (1 - ov)) (2 * n + 2) (s_cum st * (1 - ov)) (fst c) (snd (snd c)) 1 (100, 1)%R (kept (channel_in chs) (fst (snd c)))]).
  set (L := map (fun c => (col_id c, (col_vals D c, col_amp c))) (group_columns g)) in *.
  exists ids, (flat_map f1 L ++ flat_map f2 L). split; [exact Hids|]. split.
  - unfold quick_groups. cbn [flat_map]. rewrite app_nil_r, !group_states_map. fold (group_columns g). unfold L. rewrite !flat_map_concat_map, !map_map, <- !flat_map_concat_map.
    apply Forall2_app; apply Forall2_flat; intros c Hc; pose proof (proj1 (Forall_forall _ _) Hr c Hc) as Hcr.
    + apply (overlap_shows D eps ncl st). exact Hcr.
    + apply (separated_shows D eps ncl chs st). exact Hcr.
  - rewrite flat_map_app_perm. etransitivity; [exact (Permutation_flat_map (fun x => f1 x ++ f2 x) Hp)|].
    assert (Q : forall l : list (nat * (name * C)), flat_map (fun x => f1 x ++ f2 x) (map (fun x => (fst x, (values_of_name D (fst (snd x)), snd (snd x)))) l) = flat_map (quick_parts D chs ov n st) l).
    { induction l as [|x l IH]; [reflexivity|]. cbn [map flat_map]. rewrite IH. reflexivity. }
    rewrite Q. reflexivity.
Qed.
Lemma quick_all D eps ncl chs d w sks gs : (0 <= eps)%R -> delay_exists d ncl -> Forall (fun sk => good_state D eps ncl (fst sk)) sks -> Forall2 (split_facts eps ncl) sks gs ->
  forall n, exists ls pts idss,
    option_list (map (fun kg => quick_group D eps ncl chs d w (2 * fst kg) (snd kg)) (combine (seq n (length gs)) gs)) = Some ls /\
    Forall2 column_numbers (map fst sks) idss /\
    Forall2 (shows D) (flat_map group_states_of (concat ls)) pts /\
    Permutation pts (flat_map (fun x => flat_map (quick_parts D chs (gauss (delay_in d (fst (snd x))) w) (fst x) (fst (snd x))) (numbered (snd (snd x)) (fst (snd x))))
                        (combine (seq n (length sks)) (combine (map fst sks) idss))).
Proof.
  intros He Hd Hgood HF. induction HF as [|sk g sks gs Hsf HF IH]; intro n.
  - exists [], [], []. split; [reflexivity|]. split; [constructor|]. split; [constructor|constructor].
  - destruct (IH (Forall_inv_tail Hgood) (S n)) as [ls [pts [idss [E [H1 [H2 H3]]]]]]. pose proof (Forall_inv Hgood) as Hg1. cbn beta in Hg1.
    assert (Hdl : delay_of d (fst sk) = Some (delay_in d (fst sk))).
    { destruct d as [t|c]; [reflexivity|]. cbn in *. apply nth_error_nth'. destruct Hg1 as [[_ [_ [Hck _]]] _]. apply check_state_iff in Hck. destruct Hck as [_ [_ ->]]. exact Hd. }
    destruct (quick_group_shows D eps ncl chs (gauss (delay_in d (fst sk)) w) n sk g He Hg1 Hsf) as [ids [pts1 [K1 [K2 K3]]]].
    exists (quick_groups D chs (gauss (delay_in d (fst sk)) w) (2 * n) g :: ls), (pts1 ++ pts), (ids :: idss).
    cbn [length seq combine map option_list]. cbn [fst snd]. rewrite (quick_group_spec D eps ncl chs d w (2 * n) sk g (delay_in d (fst sk)) He Hg1 Hsf Hdl), E.
    split; [reflexivity|]. split; [constructor; assumption|]. cbn [concat]. rewrite flat_map_app. split; [apply Forall2_app; assumption|].
    cbn [flat_map fst snd]. apply Permutation_app; assumption.
Qed.

(** ** The full time delay *)
Lemma channels_of_spec vs : photon_channels vs = channels_of vs.
Proof.
  unfold photon_channels, channels_of. assert (G : forall k vs' pre, vs = pre ++ vs' -> length pre = k ->
     flat_map (fun cv => repeat (fst cv) (snd cv)) (combine (seq k (length vs')) vs') = flat_map (fun i => repeat i (nth i vs 0)) (seq k (length vs'))).
  { intros k vs'. revert k. induction vs' as [|v vs' IH]; intros k pre E Hk; [reflexivity|]. cbn [length seq combine flat_map fst snd]. f_equal.
    - f_equal. rewrite E, app_nth2, Hk, Nat.sub_diag by lia. reflexivity.
    - apply (IH (S k) (pre ++ [v])); [rewrite <- app_assoc; exact E|rewrite app_length; cbn; lia]. }
  apply (G 0 vs []); reflexivity.
Qed.
Lemma one_photon_spec n c : c < n -> unit_values n c = one_photon n c.
Proof.
  intro H. apply (nth_ext_0 _ _ n); [apply unit_length|unfold one_photon; rewrite map_length, seq_length; reflexivity|].
  intros i Hi. rewrite unit_nth by exact H. unfold one_photon.
  rewrite (nth_indep _ 0 ((fun i => if i =? c then 1 else 0) 0)) by (rewrite map_length, seq_length; exact Hi).
  rewrite (map_nth (fun i => if i =? c then 1 else 0)), seq_nth by exact Hi. reflexivity.
Qed.
Lemma with_photon_stamp id a b g p s i : with_photon (stamp id a b g p s) i = stamp id a b g p (with_photon s i).
Proof.
  unfold with_photon at 1. rewrite resolution_stamp. cbn [or_else r_column r_amplitude r_boson r_group r_group_cum].
  unfold stamp. rewrite with_resolution_twice, photon_with. unfold with_photon. rewrite with_resolution_twice. reflexivity.
Qed.
Lemma touches_zero D chs st n : first_values D st = repeat 0 n -> touches D chs st = false.
Proof. intro H. unfold touches. rewrite H. induction chs as [|c l IH]; [reflexivity|]. cbn [existsb]. rewrite nth_repeat_0, IH. reflexivity. Qed.
Lemma touches_unit D chs st n c : c < n -> first_values D st = unit_values n c -> touches D chs st = channel_in chs c.
Proof.
  intros Hc H. unfold touches, channel_in. rewrite H. induction chs as [|x l IH]; [reflexivity|]. cbn [existsb]. rewrite IH. f_equal.
  rewrite unit_nth by exact Hc. rewrite (Nat.eqb_sym c x). destruct (x =? c); reflexivity.
Qed.
Lemma resolved_groups_plain D eps ncl sks gs : 1 <= dN D -> (0 <= eps)%R -> Forall (fun sk => good_state D eps ncl (fst sk)) sks -> Forall2 (split_facts eps ncl) sks gs ->
  single_photon_groups D eps ncl gs = Some (map (fun g => Group (g_id g) (g_cum g) (map (fun kc => (fst kc, resolved_column D (snd kc))) (g_cols g))) gs).
Proof.
  intros HN He Hgood HF. unfold single_photon_groups. apply option_list_map_some. intros g Hg. apply single_photon_group_spec; [exact HN|].
  destruct (Forall2_in_r_ex _ _ _ _ HF Hg) as [sk [Hin Hsf]]. pose proof (proj1 (Forall_forall _ _) Hgood sk Hin) as Hg1. cbn beta in Hg1.
  destruct (split_reads D eps ncl sk g He Hg1 Hsf) as [Hr _]. revert Hr. apply Forall_impl.
  intros c [s [vs [a [p [K1 [K2 [K3 [K4 [K5 [K6 [K7 [K8 [K9 _]]]]]]]]]]]]]. rewrite K1. split; (apply Forall_cons; [|constructor]); [exact K9|].
  exists vs, a, p. split; assumption.
Qed.
(** The delayed states of one column. *)
Lemma delayed_column_shows D eps ncl chs d w st t c : 1 <= dN D -> Forall (fun ch => ch < dN D) chs -> delay_of d st = Some t -> col_reads D eps ncl st c ->
  exists sts, option_list (map (delayed_state D chs d w) (col_states (resolved_column D c))) = Some sts /\
    Forall2 (shows D) sts
      (match channels_of (col_vals D c) with
       | [] => [Part (s_init st) (s_classical st) (s_cum st) (col_group c) (s_cum st) (col_id c) (col_amp c) (sqrt (INR (factorials (col_vals D c)))) (0%R, w) (repeat 0 (dN D))]
       | l => map (fun ch => Part (s_init st) (s_classical st) (s_cum st) (col_group c) (s_cum st) (col_id c) (col_amp c) (sqrt (INR (factorials (col_vals D c))))
                                  ((if channel_in chs ch then - t else 0)%R, w) (one_photon (dN D) ch)) l
       end).
Proof.
  intros HN Hchs Hd [s [vs [a [p [K1 [K2 [K3 [K4 [K5 [K6 [K7 [K8 [K9 [K10 [K11 [K12 K13]]]]]]]]]]]]]]]]. unfold resolved_column, make_column. cbn [col_states]. rewrite K1, K13. cbn [flat_map map product fold_right]. rewrite app_nil_r.
  assert (Hfv : first_values D s = vs) by exact (first_values_one D s vs a p K2 K3). unfold product; cbn [fold_right]. rewrite Hfv, Nat.mul_1_r, K10, Rmult_1_l, K11.
  assert (Hall : forallb (fun ch => ch <? dN D) chs = true).
  { apply forallb_forall. intros x Hx. apply Nat.ltb_lt. exact (proj1 (Forall_forall _ _) Hchs x Hx). }
  unfold parts_of. rewrite Hfv. assert (Hfa : first_amp s = a) by (unfold first_amp; rewrite K3; reflexivity). rewrite Hfa.
  set (b := sqrt (INR (factorials vs))).
  assert (Hone : forall x, (forall vs', x = with_comps s [(name_string D vs', (a, Cnorm2 a))] -> valid D vs' ->
     delayed_state D chs d w (stamp (col_id c) (col_amp c) b (col_group c) (s_cum st) x)
       = Some (stamp (col_id c) (col_amp c) b (col_group c) (s_cum st) (with_photon x ((if touches D chs x then - t else 0)%R, w))) /\
     forall i, shows D (stamp (col_id c) (col_amp c) b (col_group c) (s_cum st) (with_photon x i))
        (Part (s_init st) (s_classical st) (s_cum st) (col_group c) (s_cum st) (col_id c) (col_amp c) b i vs'))).
  { intros x vs' -> Hv'. split.
    - unfold delayed_state. rewrite Hall.
      assert (Hdl : delay_of d (stamp (col_id c) (col_amp c) b (col_group c) (s_cum st) (with_comps s [(name_string D vs', (a, Cnorm2 a))])) = Some t).
      { destruct d as [z|z]; cbn in *; [exact Hd|rewrite K5; exact Hd]. }
      rewrite Hdl. rewrite with_photon_stamp, photon_stamp. change (photon_of (with_comps s [(name_string D vs', (a, Cnorm2 a))])) with (photon_of s). rewrite K7. cbn [or_else fst].
      change (touches D chs (stamp (col_id c) (col_amp c) b (col_group c) (s_cum st) (with_comps s [(name_string D vs', (a, Cnorm2 a))]))) with (touches D chs (with_comps s [(name_string D vs', (a, Cnorm2 a))])).
      do 4 f_equal. destruct (touches D chs _); ring.
    - intro i. rewrite <- K4, <- K5, <- K6.
      apply (shows_make D (col_id c) (col_amp c) b (col_group c) (s_cum s) (with_photon (with_comps s [(name_string D vs', (a, Cnorm2 a))]) i) i (a, Cnorm2 a) vs'); [apply photon_with|reflexivity|exact Hv']. }
  unfold parts. destruct (0 <? sum_values vs) eqn:E.
  - apply Nat.ltb_lt in E. rewrite sum_values_photons in E. pose proof (valid_photon_L D vs K2 E) as HL.
    assert (Hlt : forall ch, In ch (channels_of vs) -> ch < dN D).
    { intros ch Hch. rewrite <- channels_of_spec, photon_channels_pc in Hch. apply pc_in in Hch. rewrite (proj1 K2) in Hch. lia. }
    assert (Hne : channels_of vs <> []).
    { intro Z. rewrite <- channels_of_spec, photon_channels_pc in Z. apply (f_equal (@length _)) in Z. rewrite pc_length in Z. cbn in Z. lia. }
    rewrite channels_of_spec.
    assert (G : forall l, (forall ch, In ch l -> ch < dN D) ->
      exists sts, option_list (map (delayed_state D chs d w) (map (stamp (col_id c) (col_amp c) b (col_group c) (s_cum st))
                     (map (fun c0 => with_comps s [(name_string D (unit_values (dN D) c0), (a, Cnorm2 a))]) l))) = Some sts /\
        Forall2 (shows D) sts (map (fun ch => Part (s_init st) (s_classical st) (s_cum st) (col_group c) (s_cum st) (col_id c) (col_amp c) b
                                  ((if channel_in chs ch then - t else 0)%R, w) (one_photon (dN D) ch)) l)).
    { induction l as [|ch l IH]; intro Hl; [exists []; split; [reflexivity|constructor]|].
      destruct IH as [sts [E1 F1]]; [intros; apply Hl; right; assumption|]. assert (Hch : ch < dN D) by (apply Hl; left; reflexivity).
      destruct (Hone _ (unit_values (dN D) ch) eq_refl (unit_valid D ch HL)) as [E2 F2]. cbn [map option_list]. rewrite E1, E2.
      eexists. split; [reflexivity|]. constructor; [|exact F1].
      rewrite (touches_unit D chs _ (dN D) ch Hch) by (apply first_values_with; apply unit_valid; exact HL). rewrite <- one_photon_spec by exact Hch. apply F2. }
    destruct (G (channels_of vs) Hlt) as [sts [E1 F1]]. exists sts. split; [exact E1|]. destruct (channels_of vs) as [|x l]; [congruence|exact F1].
  - apply Nat.ltb_ge in E. rewrite sum_values_photons in E.
    assert (Hz : channels_of vs = []) by (rewrite <- channels_of_spec; apply length_zero_iff_nil; rewrite photon_channels_pc, pc_length; lia).
    rewrite Hz. pose proof (zeros_valid D (valid_L D vs HN K2)) as Hzv. destruct (Hone _ (repeat 0 (dN D)) eq_refl Hzv) as [E2 F2].
    cbn [map option_list]. rewrite E2. eexists. split; [reflexivity|]. constructor; [|constructor].
    rewrite (touches_zero D chs _ (dN D)) by (apply first_values_with; exact Hzv). apply F2.
Qed.
Lemma option_list_app {A} (l l' : list (option A)) r r' : option_list l = Some r -> option_list l' = Some r' -> option_list (l ++ l') = Some (r ++ r').
Proof.
  revert r. induction l as [|x l IH]; intros r E E'; [cbn in E; injection E as <-; exact E'|]. cbn [app option_list] in *. destruct x as [x|]; [|discriminate].
  destruct (option_list l) as [r0|]; [|discriminate]. rewrite (IH r0 eq_refl E'). injection E as <-. reflexivity.
Qed.
Lemma flat_shows {A} D (F : state -> option state) (f : A -> list state) (h : A -> list part) l :
  (forall x, In x l -> exists sts, option_list (map F (f x)) = Some sts /\ Forall2 (shows D) sts (h x)) ->
  exists sts, option_list (map F (flat_map f l)) = Some sts /\ Forall2 (shows D) sts (flat_map h l).
Proof.
  induction l as [|x l IH]; intro H; [exists []; split; [reflexivity|constructor]|]. destruct (H x (or_introl eq_refl)) as [s1 [E1 F1]].
  destruct IH as [s2 [E2 F2]]; [intros; apply H; right; assumption|]. exists (s1 ++ s2). cbn [flat_map]. rewrite map_app.
  split; [apply option_list_app; assumption|apply Forall2_app; assumption].
Qed.
Lemma delayed_all D eps ncl chs d w sks gs : 1 <= dN D -> (0 <= eps)%R -> delay_exists d ncl -> Forall (fun ch => ch < dN D) chs ->
  Forall (fun sk => good_state D eps ncl (fst sk)) sks -> Forall2 (split_facts eps ncl) sks gs ->
  exists sts pts idss,
    option_list (map (delayed_state D chs d w) (flat_map group_states_of
      (map (fun g => Group (g_id g) (g_cum g) (map (fun kc => (fst kc, resolved_column D (snd kc))) (g_cols g))) gs))) = Some sts /\
    Forall2 column_numbers (map fst sks) idss /\ Forall2 (shows D) sts pts /\
    Permutation pts (flat_map (fun x => flat_map (delay_parts D chs (delay_in d (fst (fst x))) w (snd (fst x)) (fst (fst x))) (numbered (snd x) (fst (fst x))))
                        (combine sks idss)).
Proof.
  intros HN He Hd Hchs Hgood HF. induction HF as [|sk g sks gs Hsf HF IH].
  - exists [], [], []. split; [reflexivity|]. split; [constructor|]. split; [constructor|constructor].
  - destruct (IH (Forall_inv_tail Hgood)) as [sts [pts [idss [E [H1 [H2 H3]]]]]]. pose proof (Forall_inv Hgood) as Hg1. cbn beta in Hg1.
    assert (Hdl : delay_of d (fst sk) = Some (delay_in d (fst sk))).
    { destruct d as [t|c]; [reflexivity|]. cbn in *. apply nth_error_nth'. destruct Hg1 as [[_ [_ [Hck _]]] _]. apply check_state_iff in Hck. destruct Hck as [_ [_ ->]]. exact Hd. }
    destruct (split_reads D eps ncl sk g He Hg1 Hsf) as [Hr _]. destruct (column_ids D eps ncl sk g He Hg1 Hsf) as [ids [Hids Hp]].
    cbn [map flat_map]. rewrite group_states_map. fold (group_columns g).
    set (h := fun y : nat * (values * C) => match channels_of (fst (snd y)) with
       | [] => [Part (s_init (fst sk)) (s_classical (fst sk)) (s_cum (fst sk)) (snd sk) (s_cum (fst sk)) (fst y) (snd (snd y)) (sqrt (INR (factorials (fst (snd y))))) (0%R, w) (repeat 0 (dN D))]
       | l => map (fun ch => Part (s_init (fst sk)) (s_classical (fst sk)) (s_cum (fst sk)) (snd sk) (s_cum (fst sk)) (fst y) (snd (snd y)) (sqrt (INR (factorials (fst (snd y)))))
                                  ((if channel_in chs ch then - delay_in d (fst sk) else 0)%R, w) (one_photon (dN D) ch)) l
       end).
    destruct (flat_shows D (delayed_state D chs d w) (fun c => col_states (resolved_column D c)) (fun c => h (col_id c, (col_vals D c, col_amp c))) (group_columns g)) as [s1 [E1 F1]].
    { intros c Hc. destruct (delayed_column_shows D eps ncl chs d w (fst sk) (delay_in d (fst sk)) c HN Hchs Hdl (proj1 (Forall_forall _ _) Hr c Hc)) as [sc [Ec Fc]].
      exists sc. split; [exact Ec|]. unfold h. cbn [fst snd].
      assert (Hcg : col_group c = snd sk).
      { destruct Hsf as [Hid [_ [Hok _]]]. unfold group_columns in Hc. apply in_map_iff in Hc. destruct Hc as [kc [<- Hkc]]. rewrite <- Hid. exact (proj1 (proj2 (proj1 (Forall_forall _ _) (proj2 Hok) kc Hkc))). }
      rewrite Hcg in Fc. exact Fc. }
    exists (s1 ++ sts). eexists (_ ++ pts), (ids :: idss). rewrite map_app. split; [apply option_list_app; [exact E1|exact E]|].
    split; [cbn [map]; constructor; assumption|]. split; [apply Forall2_app; [exact F1|exact H2]|].
    cbn [combine flat_map fst snd]. apply Permutation_app; [|exact H3].
    assert (Q1 : flat_map (fun c => h (col_id c, (col_vals D c, col_amp c))) (group_columns g) = flat_map h (map (fun c => (col_id c, (col_vals D c, col_amp c))) (group_columns g)))
      by (rewrite !flat_map_concat_map, map_map; reflexivity).
    rewrite Q1. etransitivity; [exact (Permutation_flat_map h Hp)|].
    assert (Q2 : forall l : list (nat * (name * C)), flat_map h (map (fun x => (fst x, (values_of_name D (fst (snd x)), snd (snd x)))) l) = flat_map (delay_parts D chs (delay_in d (fst sk)) w (snd sk) (fst sk)) l).
    { induction l as [|x l IHl]; [reflexivity|]. cbn [map flat_map]. rewrite IHl. reflexivity. }
    rewrite Q2. reflexivity.
Qed.
Lemma collect_ok D rnd cs sts : Forall (fun it => good_state D (co_eps cs) (co_ncl cs) (snd it)) (co_items cs) ->
  exists cs', collect rnd cs sts = Some cs' /\ map snd (co_items cs') = sts /\ NoDup (dkeys (co_items cs')) /\
    co_D cs' = co_D cs /\ co_eps cs' = co_eps cs /\ co_ncl cs' = co_ncl cs.
Proof.
  intro H. unfold collect, copy_collection. rewrite copy_items_ok.
  - eexists. split; [reflexivity|]. cbn [with_items co_items co_D co_eps co_ncl]. split; [apply states_random_map|]. split; [apply states_random_nodup; constructor|]. repeat split.
  - revert H. apply Forall_impl. intros it [[_ [_ [Hck _]]] _]. exact Hck.
Qed.
