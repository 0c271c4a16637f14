(** Proofs about columns of states: stamps, splitting, single photons, condensing. *)
From Coq Require Import Reals List Arith Lia Lra Bool Permutation.
From Coquelicot Require Import Complex.
From Verif Require Import Prelude NamesModel NamesSpec NamesProofs FockModel FockProofs StateModel StateSpec StateProofs
  CollectionModel EvalModel MeasureProofs PropMeasure PropEval OperatorModel PropCustom PropOperator ColumnModel ColumnSpec.
Import ListNotations.

(** ** What the stamps do not change *)
Definition core := (state * option (R * R))%type.
Definition core_of (st : state) : core := (drop_resolution st, photon_of st).

Lemma ddel_dset k (v : auxval) d : ddel aux_eqb k (dset aux_eqb k v d) = ddel aux_eqb k d.
Proof.
  unfold ddel. induction d as [|[k' v'] d IH]; cbn [dset filter fst].
  - rewrite (proj2 (aux_eqb_spec k k) eq_refl). reflexivity.
  - destruct (aux_eqb k k') eqn:E; cbn [filter fst]; rewrite E.
    + apply aux_eqb_spec in E. subst k'. cbn [negb]. reflexivity.
    + cbn [negb]. rewrite IH. reflexivity.
Qed.
Lemma drop_with_resolution st r : drop_resolution (with_resolution st r) = drop_resolution st.
Proof. unfold drop_resolution, with_resolution, with_aux; cbn [s_aux s_init s_cum s_comps s_classical s_results]. rewrite ddel_dset. reflexivity. Qed.
Lemma resolution_with st r : resolution_of (with_resolution st r) = Some r.
Proof. unfold resolution_of, with_resolution; cbn [s_aux with_aux]. rewrite (dget_dset_same aux_eqb aux_eqb_spec). reflexivity. Qed.
Lemma photon_stamp id a b g p st : photon_of (stamp id a b g p st) = photon_of st.
Proof. unfold photon_of at 1. unfold stamp. rewrite resolution_with. reflexivity. Qed.
Lemma drop_stamp id a b g p st : drop_resolution (stamp id a b g p st) = drop_resolution st.
Proof. apply drop_with_resolution. Qed.
Lemma core_stamp id a b g p st : core_of (stamp id a b g p st) = core_of st.
Proof. unfold core_of. rewrite photon_stamp, drop_stamp. reflexivity. Qed.
Lemma stamp_comps id a b g p st : s_comps (stamp id a b g p st) = s_comps st.
Proof. reflexivity. Qed.
Lemma stamp_check eps ncl id a b g p st : check_state eps ncl (stamp id a b g p st) = check_state eps ncl st.
Proof. reflexivity. Qed.
Lemma resolution_stamp id a b g p st :
  resolution_of (stamp id a b g p st) = Some (Resolution (Some id) (Some a) (Some b) (Some g) (Some p) (photon_of st)).
Proof. unfold stamp. apply resolution_with. Qed.

Lemma core_comps a b : core_of a = core_of b -> s_comps a = s_comps b.
Proof. intro H. exact (f_equal (fun x => s_comps (fst x)) H). Qed.
Lemma core_check eps ncl a b : core_of a = core_of b -> check_state eps ncl a = check_state eps ncl b.
Proof. intro H. exact (f_equal (fun x => check_state eps ncl (fst x)) H). Qed.
Lemma core_photon a b : core_of a = core_of b -> photon_of a = photon_of b.
Proof. intro H. exact (f_equal snd H). Qed.
(** Replacing the components of a core. *)
Definition core_with (c : core) (cs : list (name * (C * R))) : core := (with_comps (fst c) cs, snd c).
Lemma core_with_comps st cs : core_of (with_comps st cs) = core_with (core_of st) cs.
Proof. reflexivity. Qed.

(** ** Splitting *)
Definition unit_comp (nm : name) : list (name * (C * R)) := [(nm, (RtoC 1, 1%R))].
(** One state contributes its components; a single component is left as it is. *)
Definition choices (st : state) : list (C * core) :=
  match s_comps st with
  | [_] => [(RtoC 1, core_of st)]
  | cs => map (fun c => (fst (snd c), core_with (core_of st) (unit_comp (fst c)))) cs
  end.
Fixpoint terms (sts : list state) : list (C * list core) :=
  match sts with
  | [] => [(RtoC 1, [])]
  | st :: r => flat_map (fun x => map (fun y => ((fst x * fst y)%C, snd x :: snd y)) (terms r)) (choices st)
  end.
Definition ess := (C * R * R * list core)%type.
Definition column_ess (c : column) : ess := (col_amp c, col_boson c, col_cum c, map core_of (col_states c)).
Definition expand (c : column) : list ess :=
  map (fun t => ((col_amp c * fst t)%C, col_boson c, col_cum c, snd t)) (terms (col_states c)).

Lemma choices_core a b : core_of a = core_of b -> choices a = choices b.
Proof. intro H. unfold choices. rewrite (core_comps a b H), H. reflexivity. Qed.
Lemma terms_core l l' : map core_of l = map core_of l' -> terms l = terms l'.
Proof.
  revert l'. induction l as [|x l IH]; intros [|y l'] H; try discriminate; [reflexivity|].
  cbn [map] in H. pose proof (f_equal (hd (core_of x)) H) as H1. pose proof (f_equal (@tl _) H) as H2. cbn in H1, H2.
  cbn [terms]. rewrite (choices_core x y H1), (IH l' H2). reflexivity.
Qed.
Lemma map_core_stamp id a b g p l : map core_of (map (stamp id a b g p) l) = map core_of l.
Proof. rewrite map_map. apply map_ext. intro. apply core_stamp. Qed.
Lemma expand_ess c c' : column_ess c = column_ess c' -> expand c = expand c'.
Proof.
  unfold column_ess, expand. intro H.
  pose proof (f_equal snd H) as H4. pose proof (f_equal (fun x => snd (fst x)) H) as H3.
  pose proof (f_equal (fun x => snd (fst (fst x))) H) as H2. pose proof (f_equal (fun x => fst (fst (fst x))) H) as H1.
  cbn in H1, H2, H3, H4. rewrite H1, H2, H3, (terms_core _ _ H4). reflexivity.
Qed.
Lemma ess_make id a b g p sts : column_ess (make_column id a b g p sts) = (a, b, p, map core_of sts).
Proof. unfold column_ess, make_column; cbn. rewrite map_core_stamp. reflexivity. Qed.

Definition single (st : state) : Prop := exists c, s_comps st = [c].
Lemma choices_single st : single st -> choices st = [(RtoC 1, core_of st)].
Proof. intros [c H]. unfold choices. rewrite H. reflexivity. Qed.
Lemma terms_single l : Forall single l -> terms l = [(RtoC 1, map core_of l)].
Proof.
  induction 1 as [|st l H _ IH]; [reflexivity|]. cbn [terms map]. rewrite IH, (choices_single _ H). cbn.
  do 2 f_equal. apply C_eq; cbn; ring.
Qed.
Lemma expand_single c : Forall single (col_states c) -> expand c = [column_ess c].
Proof.
  intro H. unfold expand. rewrite (terms_single _ H). cbn. unfold column_ess. do 4 f_equal. apply C_eq; cbn; ring.
Qed.

(** Conditions under which a state can be split: it passes the checks of State and, if it has
    several components, they are nonzero and normalised. *)
Definition splittable (eps : R) (ncl : nat) (st : state) : Prop :=
  check_state eps ncl st = true /\ s_comps st <> [] /\
  (2 <= length (s_comps st) -> Forall (fun c => fst (snd c) <> RtoC 0) (s_comps st) /\ state_norm2 st = 1%R).
Lemma splittable_core eps ncl a b : core_of a = core_of b -> splittable eps ncl a -> splittable eps ncl b.
Proof.
  unfold splittable, state_norm2. intros H. rewrite (core_comps _ _ H), (core_check eps ncl _ _ H). exact (fun x => x).
Qed.
Lemma check_state_iff eps ncl st : check_state eps ncl st = true <->
  (- eps <= s_cum st <= 1 + eps)%R /\ Forall (fun c => (- eps <= snd (snd c) <= 1 + eps)%R) (s_comps st) /\ length (s_classical st) = ncl.
Proof.
  unfold check_state, Rltb. rewrite !andb_true_iff, forallb_forall, Forall_forall, Nat.eqb_eq. split.
  - intros [[[H1 H2] H3] H4]. split; [|split; [|exact H4]].
    + destruct (Rlt_dec (s_cum st) (- eps)); [discriminate|]. destruct (Rlt_dec eps (s_cum st - 1)); [discriminate|]. lra.
    + intros c Hc. specialize (H3 c Hc). apply andb_true_iff in H3. destruct H3 as [H5 H6].
      destruct (Rlt_dec _ (- 1 * eps)); [discriminate|]. destruct (Rlt_dec (1 + eps) _); [discriminate|]. lra.
  - intros [H1 [H2 H3]]. split; [split; [split|]|exact H3].
    + destruct (Rlt_dec (s_cum st) (- eps)); [lra|reflexivity].
    + destruct (Rlt_dec eps (s_cum st - 1)); [lra|reflexivity].
    + intros c Hc. specialize (H2 c Hc). destruct (Rlt_dec _ (- 1 * eps)); [lra|]. destruct (Rlt_dec (1 + eps) _); [lra|]. reflexivity.
Qed.
Lemma check_unit eps ncl st nm : (0 <= eps)%R -> check_state eps ncl st = true -> check_state eps ncl (with_comps st (unit_comp nm)) = true.
Proof.
  intros He H. apply check_state_iff in H. apply check_state_iff. cbn. destruct H as [H1 [_ H3]].
  split; [exact H1|]. split; [|exact H3]. apply Forall_cons; [cbn; lra|constructor].
Qed.
Lemma splittable_unit eps ncl st nm : (0 <= eps)%R -> splittable eps ncl st -> splittable eps ncl (with_comps st (unit_comp nm)).
Proof.
  intros He [H1 _]. split; [apply check_unit; assumption|]. split; [discriminate|]. cbn. lia.
Qed.

Definition scaled (k : C) (l : list (C * list core)) := map (fun t => ((k * fst t)%C, snd t)) l.
Lemma scaled_app k l l' : scaled k (l ++ l') = scaled k l ++ scaled k l'.
Proof. apply map_app. Qed.
Lemma scaled_scaled k k' l : scaled k (scaled k' l) = scaled (k * k')%C l.
Proof. unfold scaled. rewrite map_map. apply map_ext. intros [x y]. cbn. f_equal. apply C_eq; cbn; ring. Qed.
Lemma scaled_one l : scaled (RtoC 1) l = l.
Proof. unfold scaled. rewrite <- (map_id l) at 2. apply map_ext. intros [x y]. cbn. f_equal. apply C_eq; cbn; ring. Qed.

Lemma sqrt_C_ne p : (0 < p)%R -> RtoC (sqrt p) <> RtoC 0.
Proof. intros H E. apply (f_equal fst) in E. cbn in E. pose proof (sqrt_lt_R0 p H). lra. Qed.

Lemma split_state_choices st remc b newc a : 2 <= length (s_comps st) ->
  split_state (s_comps st) = Some (remc, b, newc, a) ->
  choices st = map (fun x => ((a * fst x)%C, snd x)) (choices (with_comps st newc))
               ++ map (fun x => ((b * fst x)%C, snd x)) (choices (with_comps st remc)).
Proof.
  destruct (s_comps st) as [|[n1 [a1 p1]] [|[n2 [a2 p2]] rest]] eqn:E; [cbn; lia|cbn; lia|]. intros _ H.
  unfold choices at 1. rewrite E.
  destruct rest as [|[n3 [a3 p3]] rest].
  - cbn in H. injection H as <- <- <- <-. unfold choices. cbn.
    f_equal; [f_equal; apply C_eq; cbn; ring|]. do 2 f_equal. apply C_eq; cbn; ring.
  - cbn [split_state fst snd] in H. destruct (Rlt_dec 0 (1 - Cnorm2 a1)) as [Hp|]; [|discriminate].
    assert (Hr := sqrt_C_ne _ Hp).
    injection H as <- <- <- <-. unfold choices. cbn [s_comps with_comps map fst snd app].
    f_equal; [f_equal; apply C_eq; cbn; ring|].
    assert (Ha : forall x : C, (RtoC (sqrt (1 - Cnorm2 a1)) * (x / RtoC (sqrt (1 - Cnorm2 a1))))%C = x) by (intro; field; exact Hr).
    rewrite !Ha. do 2 f_equal. rewrite !map_map. apply map_ext. intros [n [x y]]. cbn [fst snd]. rewrite Ha. reflexivity.
Qed.

Lemma flat_map_scaled (L : list (C * core)) (r : list (C * list core)) k :
  flat_map (fun x => map (fun y => ((fst x * fst y)%C, snd x :: snd y)) r) (map (fun x => ((k * fst x)%C, snd x)) L)
  = scaled k (flat_map (fun x => map (fun y => ((fst x * fst y)%C, snd x :: snd y)) r) L).
Proof.
  induction L as [|[x c] L IH]; [reflexivity|]. cbn [map flat_map]. rewrite scaled_app, <- IH. f_equal.
  unfold scaled. rewrite map_map. apply map_ext. intros [y z]. cbn. f_equal. apply C_eq; cbn; ring.
Qed.

Lemma split_first_terms sts rem b new a : split_first sts = Some (Some (rem, b, new, a)) ->
  Forall (fun st => s_comps st <> []) sts ->
  terms sts = scaled a (terms new) ++ scaled b (terms rem).
Proof.
  intro H. revert rem b new a H. induction sts as [|st r IH]; intros rem b new a H Hne; [discriminate|].
  pose proof (Forall_inv Hne) as Hs. pose proof (Forall_inv_tail Hne) as Hr.
  cbn [split_first] in H. destruct (s_comps st) as [|c1 [|c2 cs]] eqn:E; [congruence| |].
  - destruct (split_first r) as [[[[[rem' b'] new'] a']|]|] eqn:F; [|discriminate|discriminate].
    assert (H' : (st :: rem', b', st :: new', a') = (rem, b, new, a)) by congruence.
    apply pair_equal_spec in H'. destruct H' as [H' Ha]. apply pair_equal_spec in H'. destruct H' as [H' Hn].
    apply pair_equal_spec in H'. destruct H' as [Hre Hb]. subst rem b new a.
    cbn [terms]. rewrite (IH _ _ _ _ eq_refl Hr).
    rewrite (choices_single st) by (exists c1; exact E). cbn [flat_map]. rewrite !app_nil_r. rewrite map_app.
    unfold scaled. rewrite !map_map. f_equal; apply map_ext; intros [x y]; cbn; f_equal; apply C_eq; cbn; ring.
  - destruct (split_state (c1 :: c2 :: cs)) as [[[[remc b'] newc] a']|] eqn:F; [|discriminate].
    assert (H' : (with_comps st remc :: r, b', with_comps st newc :: r, a') = (rem, b, new, a)) by congruence.
    apply pair_equal_spec in H'. destruct H' as [H' Ha]. apply pair_equal_spec in H'. destruct H' as [H' Hn].
    apply pair_equal_spec in H'. destruct H' as [Hre Hb]. subst rem b new a.
    rewrite <- E in F. cbn [terms]. rewrite (split_state_choices st _ _ _ _ ltac:(rewrite E; cbn; lia) F).
    rewrite flat_map_app, !flat_map_scaled. reflexivity.
Qed.

Lemma expand_app_scale (amp : C) (bos cum : R) k l :
  map (fun t : C * list core => ((amp * fst t)%C, bos, cum, snd t)) (scaled k l)
  = map (fun t : C * list core => ((amp * k * fst t)%C, bos, cum, snd t)) l.
Proof. unfold scaled. rewrite map_map. apply map_ext. intros [x y]. cbn. do 3 f_equal. apply C_eq; cbn; ring. Qed.

Lemma split_column_expand eps ncl c rem new : split_column eps ncl c = Some (Some (rem, new)) ->
  Forall (fun st => s_comps st <> []) (col_states c) ->
  expand c = expand new ++ expand rem.
Proof.
  unfold split_column. intros H Hne. destruct (split_first (col_states c)) as [[[[[rem' b] new'] a]|]|] eqn:F; [|discriminate|discriminate].
  destruct (copy_column eps ncl c); [|discriminate].
  assert (H' : (make_column (col_id c) (col_amp c * b)%C (col_boson c) (col_group c) (col_cum c) rem',
                make_column (col_id c) (col_amp c * a)%C (col_boson c) (col_group c) (col_cum c) new') = (rem, new)) by congruence.
  apply pair_equal_spec in H'. destruct H' as [Hr Hn].
  unfold expand at 1. rewrite (split_first_terms _ _ _ _ _ F Hne), map_app, !expand_app_scale.
  f_equal.
  - rewrite <- Hn. unfold expand, make_column; cbn [col_amp col_boson col_cum col_states].
    f_equal. apply terms_core. symmetry. apply map_core_stamp.
  - rewrite <- Hr. unfold expand, make_column; cbn [col_amp col_boson col_cum col_states].
    f_equal. apply terms_core. symmetry. apply map_core_stamp.
Qed.

(** *** Which states a split leaves behind *)
Lemma split_first_none sts : split_first sts = Some None -> Forall single sts.
Proof.
  induction sts as [|st r IH]; intro H; [constructor|]. cbn [split_first] in H.
  destruct (s_comps st) as [|c1 [|c2 cs]] eqn:E.
  - discriminate.
  - constructor; [exists c1; exact E|]. apply IH. destruct (split_first r) as [[[[[? ?] ?] ?]|]|]; [discriminate|reflexivity|discriminate].
  - destruct (split_state (c1 :: c2 :: cs)) as [[[[? ?] ?] ?]|]; discriminate.
Qed.
Lemma split_first_splittable eps ncl sts rem b new a : (0 <= eps)%R -> Forall (splittable eps ncl) sts ->
  split_first sts = Some (Some (rem, b, new, a)) -> Forall (splittable eps ncl) rem /\ Forall (splittable eps ncl) new.
Proof.
  intros He. revert rem b new a. induction sts as [|st r IH]; intros rem b new a Hs H; [discriminate|].
  pose proof (Forall_inv Hs) as H1. pose proof (Forall_inv_tail Hs) as H2. cbn [split_first] in H.
  destruct (s_comps st) as [|c1 [|c2 cs]] eqn:E; [discriminate| |].
  - destruct (split_first r) as [[[[[rem' b'] new'] a']|]|] eqn:F; [|discriminate|discriminate].
    assert (H' : (st :: rem', b', st :: new', a') = (rem, b, new, a)) by congruence.
    apply pair_equal_spec in H'. destruct H' as [H' Ha]. apply pair_equal_spec in H'. destruct H' as [H' Hn].
    apply pair_equal_spec in H'. destruct H' as [Hre Hb]. subst rem b new a.
    destruct (IH _ _ _ _ H2 eq_refl). split; constructor; assumption.
  - destruct (split_state (c1 :: c2 :: cs)) as [[[[remc b'] newc] a']|] eqn:F; [|discriminate].
    assert (H' : (with_comps st remc :: r, b', with_comps st newc :: r, a') = (rem, b, new, a)) by congruence.
    apply pair_equal_spec in H'. destruct H' as [H' Ha]. apply pair_equal_spec in H'. destruct H' as [H' Hn].
    apply pair_equal_spec in H'. destruct H' as [Hre Hb]. subst rem b new a.
    destruct c1 as [n1 [a1 p1]], c2 as [n2 [a2 p2]]. destruct cs as [|c3 cs].
    + cbn in F. injection F as <- <- <- <-. split; constructor; try assumption; apply (splittable_unit eps ncl st); assumption.
    + unfold split_state in F. destruct (Rlt_dec 0 (1 - Cnorm2 a1)) as [Hp|]; [|discriminate].
      set (r0 := RtoC (sqrt (1 - Cnorm2 a1))) in *.
      assert (F' : (map (fun c : name * (C * R) => (fst c, ((fst (snd c) / r0)%C, Cnorm2 (fst (snd c) / r0)%C))) ((n2, (a2, p2)) :: c3 :: cs),
                    r0, [(n1, (RtoC 1, 1%R))], a1) = (remc, b', newc, a')) by congruence.
      apply pair_equal_spec in F'. destruct F' as [F' _]. apply pair_equal_spec in F'. destruct F' as [F' Hnew].
      apply pair_equal_spec in F'. destruct F' as [Hrem _].
      split; constructor; try assumption.
      2:{ rewrite <- Hnew. apply (splittable_unit eps ncl st); assumption. }
      rewrite <- Hrem. destruct H1 as [K1 [K2 K3]]. rewrite E in K3. destruct (K3 ltac:(cbn; lia)) as [K4 K5].
      assert (Hr : r0 <> RtoC 0) by (apply sqrt_C_ne; exact Hp).
      assert (Hn2 : forall x : C, Cnorm2 (x / r0)%C = (Cnorm2 x / (1 - Cnorm2 a1))%R).
      { intro x. unfold Cdiv, Rdiv. rewrite Cnorm2_mult. f_equal.
        assert (Hi : (Cnorm2 (/ r0)%C * Cnorm2 r0)%R = 1%R) by (rewrite <- Cnorm2_mult; replace (/ r0 * r0)%C with (RtoC 1) by (field; exact Hr); rewrite Cnorm2_RtoC; ring).
        unfold r0 in Hi at 2. rewrite Cnorm2_RtoC, sqrt_sqrt in Hi by lra. apply (Rmult_eq_reg_r (1 - Cnorm2 a1)); [|lra]. rewrite Hi. field. lra. }
      unfold state_norm2 in K5. rewrite E, Rsum_cons in K5. cbn [fst snd] in K5.
      assert (Hsum : Rsum (map (fun c : name * (C * R) => (fst c, ((fst (snd c) / r0)%C, Cnorm2 (fst (snd c) / r0)%C))) ((n2, (a2, p2)) :: c3 :: cs))
                       (fun c => Cnorm2 (fst (snd c))) = 1%R).
      { rewrite Rsum_map. cbn [fst snd]. rewrite (Rsum_ext _ _ (fun c => / (1 - Cnorm2 a1) * Cnorm2 (fst (snd c)))%R)
          by (intros; rewrite Hn2; unfold Rdiv; ring).
        rewrite Rsum_scal_l. apply (Rmult_eq_reg_l (1 - Cnorm2 a1)); [|lra]. rewrite <- Rmult_assoc, Rinv_r by lra. lra. }
      split; [|split].
      * apply check_state_iff. apply check_state_iff in K1. destruct K1 as [L1 [_ L3]].
        split; [exact L1|]. split; [|exact L3]. cbn [s_comps with_comps].
        apply Forall_forall. intros c Hc.
        assert (Hpos : (0 <= snd (snd c))%R /\ (snd (snd c) = Cnorm2 (fst (snd c)))).
        { apply in_map_iff in Hc. destruct Hc as [d [<- _]]. cbn [fst snd]. split; [apply Cnorm2_nonneg|reflexivity]. }
        destruct Hpos as [Hp1 Hp2].
        assert (Hle : (Cnorm2 (fst (snd c)) <= 1)%R).
        { rewrite <- Hsum. apply in_split in Hc. destruct Hc as [l1 [l2 ->]].
          rewrite Rsum_app, Rsum_cons. pose proof (Rsum_nonneg l1 (fun c => Cnorm2 (fst (snd c))) ltac:(intros; apply Cnorm2_nonneg)).
          pose proof (Rsum_nonneg l2 (fun c => Cnorm2 (fst (snd c))) ltac:(intros; apply Cnorm2_nonneg)). lra. }
        lra.
      * discriminate.
      * intros _. split; [|exact Hsum]. cbn [s_comps with_comps].
        apply Forall_forall. intros c Hc. apply in_map_iff in Hc. destruct Hc as [d [<- Hd]]. cbn [fst snd].
        pose proof (proj1 (Forall_forall _ _) (Forall_inv_tail K4) d Hd) as Hd0. cbn beta in Hd0.
        intro E0. apply Hd0. replace (fst (snd d)) with (fst (snd d) / r0 * r0)%C by (field; exact Hr). rewrite E0. apply C_eq; cbn; ring.
Qed.
Lemma split_first_total eps ncl sts : Forall (splittable eps ncl) sts -> split_first sts <> None.
Proof.
  induction 1 as [|st r H _ IH]; [discriminate|]. cbn [split_first]. destruct H as [K1 [K2 K3]].
  destruct (s_comps st) as [|[n1 [a1 p1]] [|[n2 [a2 p2]] cs]] eqn:E; [congruence| |].
  - destruct (split_first r) as [[[[[? ?] ?] ?]|]|]; congruence.
  - destruct cs as [|c3 cs]; [discriminate|]. unfold split_state.
    destruct (Rlt_dec 0 (1 - Cnorm2 a1)) as [|Hn]; [discriminate|]. exfalso. apply Hn.
    destruct (K3 ltac:(cbn; lia)) as [K4 K5]. unfold state_norm2 in K5. rewrite E, !Rsum_cons in K5. cbn [fst snd] in K5.
    pose proof (Forall_inv (Forall_inv_tail K4)) as K6. cbn in K6.
    pose proof (Rsum_nonneg cs (fun c => Cnorm2 (fst (snd c))) ltac:(intros; apply Cnorm2_nonneg)) as K7.
    pose proof (Cnorm2_nonneg (fst (snd c3))).
    assert (0 < Cnorm2 a2)%R by (destruct (Cnorm2_nonneg a2) as [|Hz]; [assumption|]; symmetry in Hz; apply Cnorm2_eq0 in Hz; contradiction).
    lra.
Qed.
Lemma copy_states_ok eps ncl sts : Forall (fun st => check_state eps ncl st = true) sts ->
  option_list (map (copy_state eps ncl) sts) = Some sts.
Proof. induction 1 as [|st r H _ IH]; [reflexivity|]. cbn [map option_list]. unfold copy_state at 1, make_state. rewrite H, IH. reflexivity. Qed.
Lemma copy_column_ok eps ncl c : Forall (fun st => check_state eps ncl st = true) (col_states c) ->
  copy_column eps ncl c = Some (with_states c (col_states c)).
Proof. intro H. unfold copy_column. rewrite (copy_states_ok _ _ _ H). reflexivity. Qed.
Lemma splittable_check eps ncl sts : Forall (splittable eps ncl) sts -> Forall (fun st => check_state eps ncl st = true) sts.
Proof. apply Forall_impl. intros st [H _]. exact H. Qed.
Lemma splittable_nonempty eps ncl sts : Forall (splittable eps ncl) sts -> Forall (fun st => s_comps st <> []) sts.
Proof. apply Forall_impl. intros st [_ [H _]]. exact H. Qed.
Lemma splittable_stamp eps ncl id a b g p sts : Forall (splittable eps ncl) sts -> Forall (splittable eps ncl) (map (stamp id a b g p) sts).
Proof. intro H. apply Forall_map. revert H. apply Forall_impl. intros st. apply splittable_core. symmetry. apply core_stamp. Qed.

Definition col_ok (eps : R) (ncl : nat) (c : column) : Prop := Forall (splittable eps ncl) (col_states c).
Lemma col_ok_ess eps ncl c c' : column_ess c = column_ess c' -> col_ok eps ncl c -> col_ok eps ncl c'.
Proof.
  unfold col_ok. intros H. apply (f_equal snd) in H. unfold column_ess in H. cbn [snd] in H.
  revert H. generalize (col_states c) (col_states c'). intro l. induction l as [|x l IH]; intros [|y l'] H K; try discriminate; [constructor|].
  cbn [map] in H. pose proof (f_equal (hd (core_of x)) H) as H1. pose proof (f_equal (@tl _) H) as H2. cbn in H1, H2.
  constructor; [apply (splittable_core eps ncl x); [exact H1|exact (Forall_inv K)]|apply IH; [exact H2|exact (Forall_inv_tail K)]].
Qed.

Lemma split_column_cases eps ncl c : (0 <= eps)%R -> col_ok eps ncl c ->
  (split_column eps ncl c = Some None /\ Forall single (col_states c)) \/
  exists rem new, split_column eps ncl c = Some (Some (rem, new)) /\ expand c = expand new ++ expand rem /\
    col_ok eps ncl rem /\ col_ok eps ncl new.
Proof.
  intros He H. pose proof (split_column_expand eps ncl c) as Hx. unfold split_column in *.
  destruct (split_first (col_states c)) as [[[[[rem b] new] a]|]|] eqn:F.
  - right. rewrite (copy_column_ok eps ncl c (splittable_check _ _ _ H)) in *. do 2 eexists. split; [reflexivity|].
    destruct (split_first_splittable _ _ _ _ _ _ _ He H F) as [H1 H2].
    split; [apply Hx; [reflexivity|exact (splittable_nonempty _ _ _ H)]|].
    split; unfold col_ok, make_column; cbn [col_states]; apply splittable_stamp; assumption.
  - left. split; [reflexivity|]. apply split_first_none. exact F.
  - exfalso. exact (split_first_total _ _ _ H F).
Qed.

Lemma expand_length c : Forall (fun st => s_comps st <> []) (col_states c) -> 1 <= length (expand c).
Proof.
  intro H. unfold expand. rewrite map_length. induction H as [|st r Hs _ IH]; [cbn; lia|]. cbn [terms].
  assert (Hc : choices st <> []) by (unfold choices; destruct (s_comps st) as [|? [|? ?]]; [congruence|discriminate|discriminate]).
  destruct (choices st) as [|x l]; [congruence|]. cbn [flat_map]. rewrite app_length, map_length. lia.
Qed.
Lemma column_size_length c : length (expand c) = column_size c.
Proof.
  unfold expand, column_size. rewrite map_length. induction (col_states c) as [|st r IH]; [reflexivity|].
  cbn [terms map fold_right]. rewrite <- IH.
  assert (Hl : forall L : list (C * core), length (flat_map (fun x => map (fun y => ((fst x * fst y)%C, snd x :: snd y)) (terms r)) L) = length L * length (terms r)).
  { induction L as [|x L IHL]; [reflexivity|]. cbn [flat_map length]. rewrite app_length, map_length, IHL. lia. }
  rewrite Hl. f_equal. unfold choices. destruct (s_comps st) as [|? [|? ?]]; [reflexivity|reflexivity|]. apply map_length.
Qed.

(** ** Groups *)
Lemma free_number_used fuel k used : In (free_number fuel k used) used -> forall j, k <= j <= k + fuel -> In j used.
Proof.
  revert k. induction fuel as [|f IH]; intros k H j Hj; cbn [free_number] in H.
  - replace j with k by lia. exact H.
  - destruct (existsb (Nat.eqb k) used) eqn:E.
    + destruct (Nat.eq_dec j k) as [->|Hn]; [apply existsb_exists in E; destruct E as [x [Hx E]]; apply Nat.eqb_eq in E; subst; exact Hx|].
      apply (IH (S k) H). lia.
    + exfalso. assert (existsb (Nat.eqb k) used = true) by (apply existsb_exists; exists k; split; [exact H|apply Nat.eqb_refl]). congruence.
Qed.
Lemma next_number_fresh used : ~ In (next_number used) used.
Proof.
  intro H. unfold next_number in H. pose proof (free_number_used _ _ _ H) as Ha.
  assert (Hl : length (seq 0 (S (length used))) <= length used).
  { apply NoDup_incl_length; [apply seq_NoDup|]. intros j Hj. apply in_seq in Hj. apply Ha. lia. }
  rewrite seq_length in Hl. lia.
Qed.

(** All states of a column carry its five values. *)
Definition stamped (c : column) : Prop :=
  Forall (fun st => resolution_of st = Some (Resolution (Some (col_id c)) (Some (col_amp c)) (Some (col_boson c))
                                               (Some (col_group c)) (Some (col_cum c)) (photon_of st))) (col_states c).
Lemma stamped_make id a b g p sts : stamped (make_column id a b g p sts).
Proof.
  unfold stamped, make_column; cbn. apply Forall_map. apply Forall_forall. intros st _.
  rewrite resolution_stamp, photon_stamp. reflexivity.
Qed.
Definition group_ok (g : group) : Prop :=
  NoDup (dkeys (g_cols g)) /\
  Forall (fun kc => col_id (snd kc) = fst kc /\ col_group (snd kc) = g_id g /\ col_cum (snd kc) = g_cum g /\ stamped (snd kc)) (g_cols g).
Definition group_fine (eps : R) (ncl : nat) (g : group) : Prop := Forall (col_ok eps ncl) (group_columns g).
Definition group_terms (g : group) : list ess := flat_map expand (group_columns g).

Lemma add_column_fresh g c : exists k, ~ In k (dkeys (g_cols g)) /\
  add_column g c None = Group (g_id g) (g_cum g) (g_cols g ++ [(k, col_with_group (col_with_id c k) (g_id g))]).
Proof. exists (next_number (dkeys (g_cols g))). split; [apply next_number_fresh|reflexivity]. Qed.
Lemma ess_retag c k n : column_ess (col_with_group (col_with_id c k) n) = column_ess c.
Proof. unfold col_with_group, col_with_id. rewrite ess_make. unfold make_column; cbn [col_amp col_boson col_cum col_states]. rewrite map_core_stamp. reflexivity. Qed.

Definition kc_ok (n : nat) (p : R) (kc : nat * column) : Prop :=
  col_id (snd kc) = fst kc /\ col_group (snd kc) = n /\ col_cum (snd kc) = p /\ stamped (snd kc).

Lemma split_one_spec eps ncl n p cols : (0 <= eps)%R -> Forall (col_ok eps ncl) (map snd cols) -> Forall (kc_ok n p) cols ->
  (split_one eps ncl cols = Some None /\ Forall (fun c => Forall single (col_states c)) (map snd cols)) \/
  exists cols' new, split_one eps ncl cols = Some (Some (cols', new)) /\
    Permutation (flat_map expand (map snd cols)) (flat_map expand (map snd cols') ++ expand new) /\
    Forall (col_ok eps ncl) (map snd cols') /\ col_ok eps ncl new /\
    map fst cols' = map fst cols /\ Forall (kc_ok n p) cols' /\ col_cum new = p.
Proof.
  intros He. induction cols as [|[k c] r IH]; intros Hc Hk; [left; split; [reflexivity|constructor]|].
  cbn [map snd fst split_one flat_map] in *.
  pose proof (Forall_inv Hc) as H1. pose proof (Forall_inv_tail Hc) as H2.
  pose proof (Forall_inv Hk) as K1. pose proof (Forall_inv_tail Hk) as K2.
  destruct (split_column_cases eps ncl c He H1) as [[-> Hs]|[rem [new [E [Hx [Hr Hn]]]]]].
  - destruct (IH H2 K2) as [[-> Hs2]|[cols' [new [-> [Hp [Hc' [Hn [Hf [Hk' Hcum]]]]]]]]].
    + left. split; [reflexivity|constructor; assumption].
    + right. do 2 eexists. split; [reflexivity|]. cbn [map snd fst flat_map]. repeat apply conj; try assumption.
      * rewrite <- app_assoc. apply Permutation_app_head. exact Hp.
      * constructor; assumption.
      * f_equal. exact Hf.
      * constructor; assumption.
  - rewrite E. right. do 2 eexists. split; [reflexivity|]. cbn [map snd fst flat_map].
    unfold split_column in E. destruct (split_first (col_states c)) as [[[[[rem' b] new'] a]|]|] eqn:F; [|discriminate|discriminate].
    destruct (copy_column eps ncl c); [|discriminate].
    assert (E' : (make_column (col_id c) (col_amp c * b)%C (col_boson c) (col_group c) (col_cum c) rem',
                make_column (col_id c) (col_amp c * a)%C (col_boson c) (col_group c) (col_cum c) new') = (rem, new)) by congruence.
    apply pair_equal_spec in E'. destruct E' as [Er En]. destruct K1 as [K3 [K4 [K5 K6]]]. cbn [fst snd] in *.
    repeat apply conj; try assumption.
    + rewrite Hx, <- !app_assoc. etransitivity; [apply Permutation_app_comm|]. rewrite <- app_assoc. apply Permutation_app_head. reflexivity.
    + constructor; assumption.
    + reflexivity.
    + constructor; [|assumption]. unfold kc_ok. cbn [fst snd]. rewrite <- Er. cbn [make_column col_id col_group col_cum].
      repeat apply conj; try assumption. apply stamped_make.
    + rewrite <- En. exact K5.
Qed.

Lemma split_loop_spec eps ncl fuel g : (0 <= eps)%R -> group_ok g -> group_fine eps ncl g ->
  length (group_terms g) <= fuel + length (g_cols g) ->
  exists g', split_loop fuel eps ncl g = Some g' /\ g_id g' = g_id g /\ g_cum g' = g_cum g /\ group_ok g' /\ group_fine eps ncl g' /\
    Forall (fun c => Forall single (col_states c)) (group_columns g') /\
    Permutation (map column_ess (group_columns g')) (group_terms g).
Proof.
  intros He. revert g. induction fuel as [|f IH]; intros g [Hd Hk] Hf Hlen.
  - cbn [split_loop]. destruct (split_one_spec eps ncl (g_id g) (g_cum g) (g_cols g) He Hf Hk) as [[-> Hs]|[cols' [new [E [Hp [Hc' [Hn [Hf' [Hk' Hcum]]]]]]]]].
    + exists g. split; [reflexivity|]. repeat apply conj; try assumption; try reflexivity.
      unfold group_terms, group_columns. clear -Hs. induction Hs as [|c l Hc _ IH]; [constructor|].
      cbn [map flat_map]. rewrite (expand_single c Hc). cbn [app]. constructor. exact IH.
    + exfalso. unfold group_terms, group_columns in Hlen. apply Permutation_length in Hp. rewrite Hp, app_length in Hlen.
      assert (Hge : forall l, Forall (col_ok eps ncl) l -> length l <= length (flat_map expand l)).
      { induction 1 as [|c l Hc _ IHl]; [cbn; lia|]. cbn [flat_map length]. rewrite app_length. pose proof (expand_length c (splittable_nonempty _ _ _ Hc)). lia. }
      pose proof (Hge _ Hc') as H1. rewrite map_length in H1. pose proof (expand_length new (splittable_nonempty _ _ _ Hn)).
      apply (f_equal (@length _)) in Hf'. rewrite !map_length in Hf'. lia.
  - cbn [split_loop]. destruct (split_one_spec eps ncl (g_id g) (g_cum g) (g_cols g) He Hf Hk) as [[-> Hs]|[cols' [new [E [Hp [Hc' [Hn [Hf' [Hk' Hcum]]]]]]]]].
    + exists g. split; [reflexivity|]. repeat apply conj; try assumption; try reflexivity.
      unfold group_terms, group_columns. clear -Hs. induction Hs as [|c l Hc _ IH]; [constructor|].
      cbn [map flat_map]. rewrite (expand_single c Hc). cbn [app]. constructor. exact IH.
    + rewrite E. destruct (add_column_fresh (Group (g_id g) (g_cum g) cols') new) as [k [Hfr ->]].
      cbn [g_id g_cum g_cols] in *. set (nc := col_with_group (col_with_id new k) (g_id g)).
      assert (Hperm : Permutation (group_terms (Group (g_id g) (g_cum g) (cols' ++ [(k, nc)]))) (group_terms g)).
      { unfold group_terms, group_columns; cbn [g_cols]. rewrite map_app, flat_map_app. cbn [map flat_map snd]. rewrite app_nil_r.
        unfold nc. rewrite (expand_ess _ new (ess_retag _ _ _)). symmetry. exact Hp. }
      destruct (IH (Group (g_id g) (g_cum g) (cols' ++ [(k, nc)]))) as [g' [E1 [E2 [E3 [E4 [E5 [E6 E7]]]]]]].
      * split; cbn [g_cols g_id g_cum].
        -- unfold dkeys. rewrite map_app. cbn [map fst]. apply (Permutation_NoDup (Permutation_cons_append (map fst cols') k)).
           constructor; [exact Hfr|]. rewrite Hf'. exact Hd.
        -- apply Forall_app. split; [exact Hk'|]. apply Forall_cons; [|constructor]. cbn [fst snd].
           repeat apply conj; try reflexivity; [exact Hcum|]. apply stamped_make.
      * unfold group_fine, group_columns; cbn [g_cols]. rewrite map_app. apply Forall_app. split; [exact Hc'|].
        apply Forall_cons; [|constructor]. cbn [snd]. apply (col_ok_ess eps ncl new); [symmetry; apply ess_retag|exact Hn].
      * apply Permutation_length in Hperm. rewrite Hperm. cbn [g_cols]. rewrite app_length. cbn [length].
        apply (f_equal (@length _)) in Hf'. rewrite !map_length in Hf'. lia.
      * exists g'. split; [exact E1|]. split; [exact E2|]. split; [exact E3|]. split; [exact E4|]. split; [exact E5|]. split; [exact E6|].
        etransitivity; [exact E7|exact Hperm].
Qed.
Lemma split_columns_spec eps ncl g : (0 <= eps)%R -> group_ok g -> group_fine eps ncl g ->
  exists g', split_columns eps ncl g = Some g' /\ g_id g' = g_id g /\ g_cum g' = g_cum g /\ group_ok g' /\ group_fine eps ncl g' /\
    Forall (fun c => Forall single (col_states c)) (group_columns g') /\
    Permutation (map column_ess (group_columns g')) (group_terms g).
Proof.
  intros He Hg Hf. apply split_loop_spec; try assumption. unfold group_terms, group_columns.
  assert (H : length (flat_map expand (map snd (g_cols g))) = fold_right Nat.add 0 (map (fun kc => column_size (snd kc)) (g_cols g))).
  { clear. induction (g_cols g) as [|[k c] l IH]; [reflexivity|]. cbn [map flat_map fold_right snd]. rewrite app_length, IH, column_size_length. reflexivity. }
  rewrite H. lia.
Qed.

(** ** Photons *)
Definition pc (k : nat) (vs : values) : list nat := flat_map (fun cv => repeat (fst cv) (snd cv)) (combine (seq k (length vs)) vs).
Lemma photon_channels_pc vs : photon_channels vs = pc 0 vs.
Proof. reflexivity. Qed.
Lemma pc_cons k v vs : pc k (v :: vs) = repeat k v ++ pc (S k) vs.
Proof. reflexivity. Qed.
Lemma pc_in k vs c : In c (pc k vs) -> k <= c < k + length vs.
Proof.
  revert k. induction vs as [|v vs IH]; intros k H; [destruct H|]. rewrite pc_cons in H. apply in_app_iff in H. cbn [length].
  destruct H as [H|H]; [apply repeat_spec in H; lia|]. apply IH in H. lia.
Qed.
Lemma count_repeat k v c : count_occ Nat.eq_dec (repeat k v) c = if Nat.eq_dec k c then v else 0.
Proof. induction v as [|v IH]; cbn [repeat count_occ]; destruct (Nat.eq_dec k c); auto. Qed.
Lemma pc_count_low k vs c : c < k -> count_occ Nat.eq_dec (pc k vs) c = 0.
Proof. intro H. apply count_occ_not_In. intro Hc. apply pc_in in Hc. lia. Qed.
Lemma pc_count k vs c : k <= c -> count_occ Nat.eq_dec (pc k vs) c = nth (c - k) vs 0.
Proof.
  revert k. induction vs as [|v vs IH]; intros k H; [destruct (c - k); reflexivity|]. rewrite pc_cons, count_occ_app, count_repeat.
  destruct (Nat.eq_dec k c) as [<-|Hn].
  - rewrite Nat.sub_diag, pc_count_low by lia. cbn. lia.
  - rewrite IH by lia. replace (c - k) with (S (c - S k)) by lia. reflexivity.
Qed.
Lemma nth_ext_0 (a b : values) n : length a = n -> length b = n -> (forall i, i < n -> nth i a 0 = nth i b 0) -> a = b.
Proof. intros Ha Hb H. apply (nth_ext a b 0 0); [congruence|]. intros i Hi. apply H. lia. Qed.
Lemma occupation_length n l : length (occupation n l) = n.
Proof. unfold occupation. rewrite map_length, seq_length. reflexivity. Qed.
Lemma occupation_nth n l i : i < n -> nth i (occupation n l) 0 = count_occ Nat.eq_dec l i.
Proof.
  intro H. unfold occupation. rewrite nth_indep with (d' := count_occ Nat.eq_dec l 0) by (rewrite map_length, seq_length; exact H).
  rewrite map_nth, seq_nth by exact H. reflexivity.
Qed.
Lemma occupation_channels vs n : length vs = n -> occupation n (photon_channels vs) = vs.
Proof.
  intro H. apply (nth_ext_0 _ _ n); [apply occupation_length|exact H|]. intros i Hi. rewrite occupation_nth by exact Hi.
  rewrite photon_channels_pc, pc_count by lia. f_equal. lia.
Qed.
Lemma channels_zero n : photon_channels (repeat 0 n) = [].
Proof.
  rewrite photon_channels_pc. generalize 0 at 1. induction n as [|n IH]; intro k; [reflexivity|]. cbn [repeat]. rewrite pc_cons. apply IH.
Qed.
Lemma pc_length k vs : length (pc k vs) = NamesSpec.photons vs.
Proof. revert k. induction vs as [|v vs IH]; intro k; [reflexivity|]. rewrite pc_cons, app_length, repeat_length, IH. reflexivity. Qed.

Lemma nth_repeat_0 n i : nth i (repeat 0 n) 0 = 0.
Proof. revert i. induction n as [|n IH]; intros [|i]; cbn; auto. Qed.
Lemma nth_set_nth (l : values) c x i : c < length l -> nth i (set_nth l c x) 0 = if i =? c then x else nth i l 0.
Proof.
  revert c i. induction l as [|a l IH]; intros [|c] [|i] H; cbn in *; try lia; try reflexivity. apply IH. lia.
Qed.
Lemma unit_length n c : length (unit_values n c) = n.
Proof. unfold unit_values. rewrite set_nth_length, repeat_length. reflexivity. Qed.
Lemma unit_nth n c i : c < n -> nth i (unit_values n c) 0 = if i =? c then 1 else 0.
Proof. intro H. unfold unit_values. rewrite nth_set_nth by (rewrite repeat_length; exact H). rewrite nth_repeat_0. reflexivity. Qed.
Lemma unit_valid D c : 2 <= dL D -> valid D (unit_values (dN D) c).
Proof. intro H. apply set_nth_valid; [apply zeros_valid; lia|lia]. Qed.
Lemma unit_occupation n c : c < n -> unit_values n c = occupation n [c].
Proof.
  intro H. apply (nth_ext_0 _ _ n); [apply unit_length|apply occupation_length|]. intros i Hi.
  rewrite unit_nth, occupation_nth by assumption. cbn [count_occ]. destruct (Nat.eq_dec c i) as [->|Hn].
  - rewrite Nat.eqb_refl. reflexivity.
  - destruct (Nat.eqb_spec i c); [congruence|reflexivity].
Qed.
Lemma channels_of_unit n c : c < n -> photon_channels (unit_values n c) = [c].
Proof.
  intro H. rewrite photon_channels_pc. unfold unit_values.
  assert (G : forall n k c, c < n -> pc k (set_nth (repeat 0 n) c 1) = [k + c]).
  { clear. induction n as [|n IH]; intros k [|c] H; try lia; cbn [repeat set_nth]; rewrite pc_cons; cbn [repeat app].
    - f_equal; [lia|]. assert (Z : forall m j, pc j (repeat 0 m) = []) by (induction m as [|m IHm]; intro j; [reflexivity|cbn [repeat]; rewrite pc_cons; apply IHm]).
      apply Z.
    - rewrite IH by lia. f_equal. lia. }
  apply (G n 0 c H).
Qed.

Lemma boson_fold_scale vs b : boson_fold b vs = (b * boson_fold 1 vs)%R.
Proof.
  unfold boson_fold. generalize (flat_map (seq 0) vs). intro l.
  assert (G : forall l b c, fold_left (fun (b : R) k => (b * sqrt (INR (k + 1)))%R) l (b * c)%R = (b * fold_left (fun (b : R) k => (b * sqrt (INR (k + 1)))%R) l c)%R).
  { clear. induction l as [|k l IH]; intros b c; cbn [fold_left]; [reflexivity|]. rewrite Rmult_assoc. apply IH. }
  rewrite <- (Rmult_1_r b) at 1. apply G.
Qed.
Lemma boson_fold_spec vs b : boson_fold b vs = (b * sqrt (INR (factorials vs)))%R.
Proof.
  rewrite boson_fold_scale. f_equal.
  assert (G : forall l b, fold_left (fun (b : R) k => (b * sqrt (INR (k + 1)))%R) l b = (b * fold_left (fun (b : R) k => (b * sqrt (INR (k + 1)))%R) l 1)%R).
  { intros l c. pose proof (boson_fold_scale [] c). clear H. revert c. induction l as [|k l IH]; intro c; cbn [fold_left]; [ring|].
    rewrite IH, (IH (1 * _)%R). ring. }
  unfold boson_fold. induction vs as [|v vs IH]; [cbn; rewrite sqrt_1; reflexivity|].
  cbn [flat_map factorials]. rewrite fold_left_app, G, IH, mult_INR, sqrt_mult by apply pos_INR. f_equal.
  clear IH. induction v as [|v IH]; [cbn; rewrite sqrt_1; reflexivity|].
  rewrite seq_S, fold_left_app. cbn [fold_left Nat.add]. rewrite IH.
  replace (v + 1) with (S v) by lia. rewrite <- sqrt_mult by apply pos_INR. f_equal. rewrite <- mult_INR. f_equal. cbn [fact]. lia.
Qed.
Lemma factorials_pos vs : 0 < factorials vs.
Proof. induction vs as [|v vs IH]; cbn; [lia|]. pose proof (lt_O_fact v). apply Nat.mul_pos_pos; assumption. Qed.
Lemma factorials_small vs : Forall (fun v => v <= 1) vs -> factorials vs = 1.
Proof. induction 1 as [|v vs H _ IH]; [reflexivity|]. cbn [factorials]. rewrite IH. destruct v as [|[|v]]; [reflexivity|reflexivity|lia]. Qed.
Lemma factorials_unit n c : factorials (unit_values n c) = 1.
Proof.
  apply factorials_small. unfold unit_values. revert c. induction n as [|n IH]; intros [|c]; cbn [repeat set_nth]; constructor; auto; try lia.
  clear. induction n; constructor; auto.
Qed.
Lemma factorials_zero n : factorials (repeat 0 n) = 1.
Proof. apply factorials_small. induction n; constructor; auto. Qed.

(** The component of a state with one component. *)
Lemma first_values_core D a b : core_of a = core_of b -> first_values D a = first_values D b.
Proof. intro H. unfold first_values. rewrite (core_comps _ _ H). reflexivity. Qed.
Definition core_values (D : dims) (c : core) : values := first_values D (fst c).
Lemma core_values_of D st : core_values D (core_of st) = first_values D st.
Proof. reflexivity. Qed.
(** The photons of a list of cores. *)
Definition core_photons (D : dims) (l : list core) : list (nat * option (R * R)) :=
  flat_map (fun c => map (fun ch => (ch, snd c)) (photon_channels (core_values D c))) l.
Lemma photons_core D c : list_of_photons D c = core_photons D (map core_of (col_states c)).
Proof. unfold list_of_photons, core_photons. induction (col_states c) as [|st l IH]; [reflexivity|]. cbn [map flat_map]. rewrite IH. reflexivity. Qed.

(** The states a single-component state is replaced by. *)
Definition parts (D : dims) (st : state) (vs : values) (a : C) : list state :=
  if 0 <? sum_values vs
  then map (fun c => with_comps st [(name_string D (unit_values (dN D) c), (a, Cnorm2 a))]) (photon_channels vs)
  else [with_comps st [(name_string D (repeat 0 (dN D)), (a, Cnorm2 a))]].
Lemma valid_photon_L D vs : valid D vs -> 0 < NamesSpec.photons vs -> 2 <= dL D.
Proof.
  intros [_ H] Hp. induction H as [|v vs Hv _ IH]; cbn in Hp; [lia|]. destruct v; [apply IH; exact Hp|lia].
Qed.
Lemma valid_L D vs : 1 <= dN D -> valid D vs -> 1 <= dL D.
Proof. intros HN [Hl H]. destruct vs as [|v vs]; [cbn in Hl; lia|]. pose proof (Forall_inv H). cbn in *. lia. Qed.
Lemma single_photons_spec D eps ncl st vs a p : 1 <= dN D -> valid D vs -> check_state eps ncl st = true ->
  s_comps st = [(name_string D vs, (a, p))] ->
  single_photons D eps ncl st = Some (parts D st vs a).
Proof.
  intros HN Hv Hc Hs. unfold single_photons. rewrite Hs.
  rewrite (values_of_name_string D vs (proj2 Hv)). unfold copy_state, make_state. rewrite Hc. cbv zeta.
  rewrite (proj1 Hv). unfold parts. destruct (0 <? sum_values vs) eqn:E.
  - apply Nat.ltb_lt in E. rewrite sum_values_photons in E. pose proof (valid_photon_L D vs Hv E) as HL.
    induction (photon_channels vs) as [|c l IH]; [reflexivity|]. cbn [map option_list].
    rewrite (name_of_values_valid D) by (apply (unit_valid D c HL)). rewrite IH. reflexivity.
  - cbn [option_list]. rewrite (name_of_values_valid D); [reflexivity|]. apply (zeros_valid D (valid_L D vs HN Hv)).
Qed.

(** A state with one component that exists in the circuit. *)
Definition one_component (D : dims) (st : state) : Prop :=
  exists vs a p, valid D vs /\ s_comps st = [(name_string D vs, (a, p))].
Lemma one_component_core D a b : core_of a = core_of b -> one_component D a -> one_component D b.
Proof. intros H. unfold one_component. rewrite (core_comps _ _ H). exact (fun x => x). Qed.
Lemma first_values_one D st vs a p : valid D vs -> s_comps st = [(name_string D vs, (a, p))] -> first_values D st = vs.
Proof. intros Hv H. unfold first_values. rewrite H. apply values_of_name_string. exact (proj2 Hv). Qed.
Lemma first_values_with D st vs a p : valid D vs -> first_values D (with_comps st [(name_string D vs, (a, p))]) = vs.
Proof. intro H. apply (first_values_one D (with_comps st _) vs a p H). reflexivity. Qed.
Lemma one_component_single D st : one_component D st -> single st.
Proof. intros [vs [a [p [_ H]]]]. eexists. exact H. Qed.
(** What the state becomes: given by its photon numbers and its amplitude. *)
Definition first_amp (st : state) : C := match s_comps st with [] => RtoC 0 | (_, (a, _)) :: _ => a end.
Definition parts_of (D : dims) (st : state) : list state := parts D st (first_values D st) (first_amp st).
Lemma single_photons_parts D eps ncl st : 1 <= dN D -> check_state eps ncl st = true -> one_component D st ->
  single_photons D eps ncl st = Some (parts_of D st).
Proof.
  intros HN Hc [vs [a [p [Hv Hs]]]]. rewrite (single_photons_spec D eps ncl st vs a p HN Hv Hc Hs).
  unfold parts_of. rewrite (first_values_one D st vs a p Hv Hs). unfold first_amp. rewrite Hs. reflexivity.
Qed.
Lemma parts_photons D st : 1 <= dN D -> one_component D st ->
  core_photons D (map core_of (parts_of D st)) = core_photons D [core_of st].
Proof.
  intros HN [vs [a [p [Hv Hs]]]]. unfold parts_of. rewrite (first_values_one D st vs a p Hv Hs). unfold first_amp. rewrite Hs.
  unfold core_photons at 2. cbn [flat_map]. rewrite app_nil_r. rewrite core_values_of, (first_values_one D st vs a p Hv Hs). cbn [snd core_of].
  unfold parts. destruct (0 <? sum_values vs) eqn:E.
  - apply Nat.ltb_lt in E. rewrite sum_values_photons in E. pose proof (valid_photon_L D vs Hv E) as HL.
    assert (G : forall l, (forall c, In c l -> c < dN D) ->
       core_photons D (map core_of (map (fun c => with_comps st [(name_string D (unit_values (dN D) c), (a, Cnorm2 a))]) l))
       = map (fun ch => (ch, photon_of st)) l).
    { induction l as [|c l IH]; intro Hl; [reflexivity|]. unfold core_photons. cbn [map flat_map].
      rewrite core_values_of, (first_values_with D st (unit_values (dN D) c) a (Cnorm2 a) (unit_valid D c HL)).
      rewrite channels_of_unit by (apply Hl; left; reflexivity). cbn [map app]. f_equal.
      apply IH. intros x Hx. apply Hl. right. exact Hx. }
    apply G. intros c Hc. rewrite photon_channels_pc in Hc. apply pc_in in Hc. rewrite (proj1 Hv) in Hc. lia.
  - apply Nat.ltb_ge in E. rewrite sum_values_photons in E.
    assert (Hz : photon_channels vs = []) by (apply length_zero_iff_nil; rewrite photon_channels_pc, pc_length; lia).
    rewrite Hz. unfold core_photons. cbn [map flat_map].
    rewrite core_values_of, (first_values_with D st (repeat 0 (dN D)) a (Cnorm2 a) (zeros_valid D (valid_L D vs HN Hv))).
    rewrite channels_zero. reflexivity.
Qed.
Lemma core_photons_app D l l' : core_photons D (l ++ l') = core_photons D l ++ core_photons D l'.
Proof. apply flat_map_app. Qed.

(** Every state has at most one photon. *)
Definition at_most_one (D : dims) (st : state) : Prop :=
  exists vs a p, valid D vs /\ NamesSpec.photons vs <= 1 /\ s_comps st = [(name_string D vs, (a, p))].
Lemma photons_unit n c : c < n -> NamesSpec.photons (unit_values n c) = 1.
Proof. intro H. rewrite <- (pc_length 0). rewrite <- photon_channels_pc, channels_of_unit by exact H. reflexivity. Qed.
Lemma photons_zero n : NamesSpec.photons (repeat 0 n) = 0.
Proof. induction n; [reflexivity|exact IHn]. Qed.
Lemma parts_small D st : 1 <= dN D -> one_component D st -> Forall (at_most_one D) (parts_of D st).
Proof.
  intros HN [vs [a [p [Hv Hs]]]]. unfold parts_of. rewrite (first_values_one D st vs a p Hv Hs). unfold first_amp. rewrite Hs.
  unfold parts. destruct (0 <? sum_values vs) eqn:E.
  - apply Nat.ltb_lt in E. rewrite sum_values_photons in E. pose proof (valid_photon_L D vs Hv E) as HL.
    apply Forall_map. apply Forall_forall. intros c Hc. rewrite photon_channels_pc in Hc. apply pc_in in Hc. rewrite (proj1 Hv) in Hc.
    exists (unit_values (dN D) c), a, (Cnorm2 a). split; [apply unit_valid; exact HL|]. split; [|reflexivity]. rewrite photons_unit by lia. lia.
  - apply Forall_cons; [|constructor]. exists (repeat 0 (dN D)), a, (Cnorm2 a). split; [apply (zeros_valid D (valid_L D vs HN Hv))|]. split; [|reflexivity].
    rewrite photons_zero. lia.
Qed.
Lemma parts_nonempty D st : 1 <= dN D -> one_component D st -> parts_of D st <> [].
Proof.
  intros HN [vs [a [p [Hv Hs]]]]. unfold parts_of. rewrite (first_values_one D st vs a p Hv Hs). unfold parts.
  destruct (0 <? sum_values vs) eqn:E; [|discriminate]. apply Nat.ltb_lt in E. rewrite sum_values_photons in E.
  intro H. apply map_eq_nil in H. apply (f_equal (@length _)) in H. rewrite photon_channels_pc, pc_length in H. cbn in H. lia.
Qed.
Lemma at_most_one_component D st : at_most_one D st -> one_component D st.
Proof. intros [vs [a [p [H1 [_ H2]]]]]. exists vs, a, p. split; assumption. Qed.

Lemma option_list_map_some {A B} (f : A -> option B) (h : A -> B) l : (forall x, In x l -> f x = Some (h x)) -> option_list (map f l) = Some (map h l).
Proof.
  induction l as [|x l IH]; intro H; [reflexivity|]. cbn [map option_list]. rewrite (H x (or_introl eq_refl)), IH by (intros; apply H; right; assumption). reflexivity.
Qed.
Definition product (l : list nat) : nat := fold_right Nat.mul 1 l.
Lemma boson_states_spec (l : list values) b :
  fold_left (fun b vs => boson_fold b vs) l b = (b * sqrt (INR (product (map factorials l))))%R.
Proof.
  revert b. induction l as [|vs l IH]; intro b; cbn [fold_left map product fold_right]; [cbn; rewrite sqrt_1; ring|].
  rewrite IH, boson_fold_spec. fold (product (map factorials l)). rewrite mult_INR, sqrt_mult by apply pos_INR. ring.
Qed.

(** The result of single_photon_states on a column of single-component states. *)
Definition resolved_column (D : dims) (c : column) : column :=
  make_column (col_id c) (col_amp c)
    (col_boson c * sqrt (INR (product (map (fun st => factorials (first_values D st)) (col_states c)))))
    (col_group c) (col_cum c) (flat_map (parts_of D) (col_states c)).
Lemma single_photon_column_spec D eps ncl c : 1 <= dN D ->
  Forall (fun st => check_state eps ncl st = true) (col_states c) -> Forall (one_component D) (col_states c) ->
  single_photon_column D eps ncl c = Some (resolved_column D c).
Proof.
  intros HN Hc Ho. unfold single_photon_column.
  rewrite (option_list_map_some _ (parts_of D)).
  2:{ intros st Hst. apply single_photons_parts; [exact HN| |]; [exact (proj1 (Forall_forall _ _) Hc st Hst)|exact (proj1 (Forall_forall _ _) Ho st Hst)]. }
  unfold resolved_column. rewrite <- flat_map_concat_map. do 2 f_equal.
  rewrite <- (map_map (first_values D) factorials). rewrite <- boson_states_spec.
  generalize (col_boson c) (col_states c). intros b l. revert b. induction l as [|st l IH]; intro b; [reflexivity|]. cbn [fold_left map]. apply IH.
Qed.
Lemma resolved_photons D c : 1 <= dN D -> Forall (one_component D) (col_states c) ->
  list_of_photons D (resolved_column D c) = list_of_photons D c.
Proof.
  intros HN Ho. rewrite !photons_core. unfold resolved_column, make_column. cbn [col_states]. rewrite map_core_stamp.
  induction Ho as [|st l H _ IH]; [reflexivity|]. cbn [flat_map map]. rewrite map_app, core_photons_app, parts_photons by assumption.
  rewrite IH. change (core_of st :: map core_of l) with ([core_of st] ++ map core_of l). rewrite core_photons_app. reflexivity.
Qed.

(** The photon numbers of a column. *)
Lemma add_values_length a b n : length a = n -> length b = n -> length (add_values a b) = n.
Proof. intros Ha Hb. unfold add_values. rewrite map_length, combine_length. lia. Qed.
Lemma add_values_nth a b n i : length a = n -> length b = n -> i < n -> nth i (add_values a b) 0 = nth i a 0 + nth i b 0.
Proof.
  intros Ha Hb Hi. unfold add_values. rewrite nth_indep with (d' := (fun p => fst p + snd p) (0, 0)) by (rewrite map_length, combine_length; lia).
  rewrite (map_nth (fun p => fst p + snd p)), combine_nth by congruence. reflexivity.
Qed.
Lemma column_values_spec D c : Forall (fun st => length (first_values D st) = dN D) (col_states c) -> col_states c <> [] ->
  column_values D c = Some (occupation (dN D) (map fst (list_of_photons D c))).
Proof.
  intros Hl Hne. unfold column_values, list_of_photons. destruct (col_states c) as [|st sts]; [congruence|]. cbn [map]. f_equal.
  assert (G : forall l acc ph, Forall (fun st => length (first_values D st) = dN D) l -> length acc = dN D -> acc = occupation (dN D) ph ->
     fold_left (fun acc new => add_values new acc) (map (first_values D) l) acc
     = occupation (dN D) (ph ++ map fst (flat_map (fun st => map (fun ch => (ch, photon_of st)) (photon_channels (first_values D st))) l))).
  { induction l as [|s l IH]; intros acc ph Hf Ha E; cbn [map fold_left flat_map]; [rewrite app_nil_r; exact E|].
    rewrite (IH _ (ph ++ photon_channels (first_values D s))).
    - f_equal. rewrite <- app_assoc. f_equal. rewrite map_app. f_equal. rewrite map_map. cbn [fst]. symmetry. apply map_id.
    - exact (Forall_inv_tail Hf).
    - apply add_values_length; [exact (Forall_inv Hf)|exact Ha].
    - apply (nth_ext_0 _ _ (dN D)); [apply add_values_length; [exact (Forall_inv Hf)|exact Ha]|apply occupation_length|].
      intros i Hi. rewrite (add_values_nth _ _ (dN D)) by (assumption || exact (Forall_inv Hf)). rewrite occupation_nth by exact Hi.
      rewrite count_occ_app, E, occupation_nth by exact Hi. rewrite photon_channels_pc, pc_count by lia. rewrite Nat.sub_0_r. lia. }
  rewrite (G sts (first_values D st) (photon_channels (first_values D st))).
  - f_equal. cbn [flat_map]. rewrite map_app, map_map. cbn [fst]. rewrite map_id. reflexivity.
  - exact (Forall_inv_tail Hl).
  - exact (Forall_inv Hl).
  - symmetry. apply occupation_channels. exact (Forall_inv Hl).
Qed.

(** ** Condensing *)
Lemma rmult_boson D (l : list state) :
  fold_left Rmult (map (fun st => boson_fold 1 (first_values D st)) l) 1%R = sqrt (INR (product (map (fun st => factorials (first_values D st)) l))).
Proof.
  assert (G : forall l b, fold_left Rmult (map (fun st => boson_fold 1 (first_values D st)) l) b
     = (b * sqrt (INR (product (map (fun st => factorials (first_values D st)) l))))%R).
  { clear l. induction l as [|st l IH]; intro b; cbn [map fold_left product fold_right]; [cbn; rewrite sqrt_1; ring|].
    rewrite IH, boson_fold_spec. fold (product (map (fun st => factorials (first_values D st)) l)). rewrite mult_INR, sqrt_mult by apply pos_INR. ring. }
  rewrite G. ring.
Qed.
Definition column_occ (D : dims) (c : column) : values := occupation (dN D) (map fst (list_of_photons D c)).
Lemma condense_spec D eps ncl (use : bool) c st sts :
  rev (col_states c) = st :: sts ->
  Forall (fun st => check_state eps ncl st = true) (col_states c) -> Forall (one_component D) (col_states c) ->
  valid D (column_occ D c) ->
  (use = true -> (0 <= col_cum c * Cnorm2 (col_amp c) <= 1)%R) ->
  condense D eps ncl use c = Some (make_column (col_id c) (col_amp c)
     (col_boson c * sqrt (INR (product (map (fun st => factorials (first_values D st)) (col_states c)))) / sqrt (INR (factorials (column_occ D c))))
     (col_group c) (col_cum c)
     [let s := with_comps st (unit_comp (name_string D (column_occ D c))) in
      if use then with_cum s (col_cum c * Cnorm2 (col_amp c))%R else s]).
Proof.
  intros Hr Hc Ho Hv Hu. unfold condense.
  assert (Hne : col_states c <> []) by (intro E; rewrite E in Hr; discriminate).
  rewrite column_values_spec; [|revert Ho; apply Forall_impl; intros s [vs [a [p [Hvs Hs]]]]; rewrite (first_values_one D s vs a p Hvs Hs); exact (proj1 Hvs)|exact Hne].
  rewrite Hr. fold (column_occ D c).
  replace (existsb _ (col_states c)) with false.
  2:{ symmetry. apply not_true_iff_false. intro E. apply existsb_exists in E. destruct E as [s [Hs E]].
      pose proof (proj1 (Forall_forall _ _) Ho s Hs) as [vs [a [p [_ Hcs]]]]. rewrite Hcs in E. discriminate. }
  rewrite (proj2 (contains_values_spec D (column_occ D c)) Hv).
  assert (Hst : check_state eps ncl st = true).
  { apply (proj1 (Forall_forall _ _) Hc). apply in_rev. rewrite Hr. left. reflexivity. }
  unfold copy_state, make_state. rewrite Hst. cbv zeta. rewrite rmult_boson, boson_fold_spec, Rmult_1_l.
  destruct use.
  - unfold set_cumulative. destruct (Rle_dec 0 _) as [|H0]; [|exfalso; apply H0; exact (proj1 (Hu eq_refl))].
    destruct (Rle_dec _ 1) as [|H0]; [reflexivity|exfalso; apply H0; exact (proj2 (Hu eq_refl))].
  - reflexivity.
Qed.

Lemma with_states_ess c : column_ess (with_states c (col_states c)) = column_ess c.
Proof. unfold with_states. rewrite ess_make. reflexivity. Qed.
Lemma ess_photons D c c' : column_ess c = column_ess c' -> list_of_photons D c = list_of_photons D c'.
Proof. intro H. rewrite !photons_core. f_equal. exact (f_equal snd H). Qed.
Lemma ess_occ D c c' : column_ess c = column_ess c' -> column_occ D c = column_occ D c'.
Proof. intro H. unfold column_occ. rewrite (ess_photons D c c' H). reflexivity. Qed.
Lemma ess_forall (P : state -> Prop) c c' : (forall a b, core_of a = core_of b -> P a -> P b) -> column_ess c = column_ess c' ->
  Forall P (col_states c) -> Forall P (col_states c').
Proof.
  intros HP H. apply (f_equal snd) in H. unfold column_ess in H. cbn [snd] in H.
  revert H. generalize (col_states c) (col_states c'). intro l. induction l as [|x l IH]; intros [|y l'] H K; try discriminate; [constructor|].
  cbn [map] in H. pose proof (f_equal (hd (core_of x)) H) as H1. pose proof (f_equal (@tl _) H) as H2. cbn in H1, H2.
  constructor; [apply (HP x); [exact H1|exact (Forall_inv K)]|apply IH; [exact H2|exact (Forall_inv_tail K)]].
Qed.
Lemma drop_idem st : drop_resolution (drop_resolution st) = drop_resolution st.
Proof.
  unfold drop_resolution, with_aux; cbn [s_aux s_init s_cum s_comps s_classical s_results]. f_equal. unfold ddel.
  induction (s_aux st) as [|kv l IH]; [reflexivity|]. cbn [filter]. destruct (negb _) eqn:E; [cbn [filter]; rewrite E, IH; reflexivity|exact IH].
Qed.

Lemma column_state_spec D eps ncl c st sts :
  rev (col_states c) = st :: sts ->
  Forall (fun st => check_state eps ncl st = true) (col_states c) -> Forall (one_component D) (col_states c) ->
  valid D (column_occ D c) -> (0 <= col_cum c * Cnorm2 (col_amp c) <= 1)%R ->
  column_state D eps ncl true c
  = Some (with_cum (with_comps (drop_resolution st) (unit_comp (name_string D (column_occ D c)))) (col_cum c * Cnorm2 (col_amp c))).
Proof.
  intros Hr Hc Ho Hv Hu. unfold column_state. rewrite (copy_column_ok eps ncl c Hc).
  set (c' := with_states c (col_states c)). assert (He : column_ess c = column_ess c') by (symmetry; apply with_states_ess).
  destruct (rev (col_states c')) as [|st' sts'] eqn:Hr'.
  { exfalso. unfold c', with_states, make_column in Hr'; cbn [col_states] in Hr'. rewrite <- map_rev, Hr in Hr'. discriminate. }
  rewrite (condense_spec D eps ncl true c' st' sts' Hr').
  - unfold make_column. cbn [col_states map]. unfold stamp. rewrite drop_with_resolution.
    rewrite <- (ess_occ D c c' He). f_equal.
    assert (Hd : drop_resolution st' = drop_resolution st).
    { unfold c', with_states, make_column in Hr'; cbn [col_states] in Hr'. rewrite <- map_rev, Hr in Hr'. cbn [map] in Hr'.
      assert (E : stamp (col_id c) (col_amp c) (col_boson c) (col_group c) (col_cum c) st = st') by congruence. rewrite <- E. apply drop_stamp. }
    cbv zeta. change (drop_resolution (with_cum (with_comps st' (unit_comp (name_string D (column_occ D c)))) (col_cum c' * Cnorm2 (col_amp c')))) with
      (with_cum (with_comps (drop_resolution st') (unit_comp (name_string D (column_occ D c)))) (col_cum c * Cnorm2 (col_amp c))).
    rewrite Hd. reflexivity.
  - revert Hc. apply ess_forall; [|exact He]. intros a b Hab. rewrite (core_check eps ncl a b Hab). exact (fun x => x).
  - revert Ho. apply ess_forall; [|exact He]. intros a b. apply one_component_core.
  - rewrite <- (ess_occ D c c' He). exact Hv.
  - intros _. exact Hu.
Qed.

(** ** From a group back to a state *)
Definition frame (st : state) : state := with_comps (with_cum (drop_resolution st) 0) [].
Definition ess_occ_of (D : dims) (e : ess) : values := occupation (dN D) (map fst (core_photons D (snd e))).
Lemma column_occ_ess D c : column_occ D c = ess_occ_of D (column_ess c).
Proof. unfold column_occ, ess_occ_of, column_ess; cbn [snd]. rewrite photons_core. reflexivity. Qed.
Definition ess_amp (e : ess) : C := fst (fst (fst e)).

Lemma fold_one_comp (l : list (name * C)) acc : NoDup (map fst acc ++ map fst l) ->
  fold_left (fun acc nm => dset leqb (fst nm) (snd nm, Cnorm2 (snd nm)) acc) l acc
  = acc ++ map (fun nm => (fst nm, (snd nm, Cnorm2 (snd nm)))) l.
Proof.
  revert acc. induction l as [|[n a] l IH]; intros acc H; cbn [fold_left map]; [symmetry; apply app_nil_r|]. cbn [fst snd].
  rewrite (dset_fresh leqb leqb_spec).
  - rewrite IH.
    + rewrite <- app_assoc. reflexivity.
    + rewrite map_app, <- app_assoc. exact H.
  - cbn [map fst] in H. apply NoDup_remove_2 in H. intro K. apply H. apply in_app_iff. left. exact K.
Qed.

Lemma group_state_spec D eps ncl g F : (0 <= eps)%R -> group_ok g -> group_fine eps ncl g -> g_cols g <> [] ->
  Forall (fun c => col_states c <> [] /\ Forall (one_component D) (col_states c) /\ Forall (fun st => frame st = F) (col_states c) /\
                   valid D (column_occ D c) /\ (Cnorm2 (col_amp c) <= 1)%R) (group_columns g) ->
  NoDup (map (column_occ D) (group_columns g)) -> (0 <= g_cum g <= 1)%R ->
  exists comps, group_state D eps ncl g = Some (with_comps (with_cum F (g_cum g)) comps) /\
    Permutation comps (map (fun c => (name_string D (column_occ D c), (col_amp c, Cnorm2 (col_amp c)))) (group_columns g)).
Proof.
  intros He Hok Hf Hne Hall Hnd Hcum. unfold group_state.
  destruct (split_columns_spec eps ncl g He Hok Hf) as [g' [-> [Hid [Hgc [Hok' [Hf' [Hs' Hp]]]]]]].
  assert (Ht : group_terms g = map column_ess (group_columns g)).
  { unfold group_terms. clear -Hall. induction Hall as [|c l [_ [H _]] _ IH]; [reflexivity|]. cbn [flat_map map]. rewrite IH, expand_single; [reflexivity|].
    revert H. apply Forall_impl. intro st. apply one_component_single. }
  rewrite Ht in Hp.
  assert (Hall' : Forall (fun c => col_states c <> [] /\ Forall (one_component D) (col_states c) /\ Forall (fun st => frame st = F) (col_states c) /\
                   valid D (column_occ D c) /\ (Cnorm2 (col_amp c) <= 1)%R) (group_columns g')).
  { apply Forall_forall. intros c' Hc'. assert (Hin : In (column_ess c') (map column_ess (group_columns g))) by (apply (Permutation_in _ Hp); apply in_map; exact Hc').
    apply in_map_iff in Hin. destruct Hin as [c [E Hc]]. pose proof (proj1 (Forall_forall _ _) Hall c Hc) as [K1 [K2 [K3 [K4 K5]]]].
    split; [|split; [|split; [|split]]].
    - intro Z. apply K1. apply (f_equal snd) in E. unfold column_ess in E; cbn [snd] in E. rewrite Z in E. apply map_eq_nil in E. exact E.
    - revert K2. apply ess_forall; [|exact E]. intros a b. apply one_component_core.
    - revert K3. apply ess_forall; [|exact E]. intros a b Hab Ha. rewrite <- Ha. unfold frame. rewrite (f_equal fst Hab : drop_resolution a = drop_resolution b). reflexivity.
    - rewrite <- (ess_occ D c c' E). exact K4.
    - rewrite <- (f_equal ess_amp E : col_amp c = col_amp c'). exact K5. }
  assert (Hcums : forall c, In c (group_columns g') -> col_cum c = g_cum g).
  { intros c Hc. apply in_map_iff in Hc. destruct Hc as [kc [<- Hc]]. destruct (proj1 (Forall_forall _ _) (proj2 Hok') kc Hc) as [_ [_ [K _]]]. congruence. }
  (* the state of every column *)
  set (lst := fun c => last (col_states c) F).
  set (stc := fun c => with_cum (with_comps (drop_resolution (lst c)) (unit_comp (name_string D (column_occ D c)))) (col_cum c * Cnorm2 (col_amp c))).
  assert (Hcs : forall c, In c (group_columns g') -> column_state D eps ncl true c = Some (stc c) /\ check_state eps ncl (lst c) = true /\ frame (lst c) = F).
  { intros c Hc. pose proof (proj1 (Forall_forall _ _) Hall' c Hc) as [K1 [K2 [K3 [K4 K5]]]].
    pose proof (proj1 (Forall_forall _ _) Hf' c Hc) as K6. apply splittable_check in K6.
    destruct (exists_last K1) as [l [x Hx]].
    assert (Hl : lst c = x) by (unfold lst; rewrite Hx; apply last_last).
    assert (Hin : In x (col_states c)) by (rewrite Hx; apply in_app_iff; right; left; reflexivity).
    split; [|split].
    - rewrite (column_state_spec D eps ncl c x (rev l)); try assumption.
      + unfold stc. rewrite Hl. reflexivity.
      + rewrite Hx, rev_app_distr. reflexivity.
      + rewrite (Hcums c Hc). pose proof (Cnorm2_nonneg (col_amp c)). split; [apply Rmult_le_pos; lra|].
        apply Rle_trans with (1 * 1)%R; [|lra]. apply Rmult_le_compat; lra.
    - rewrite Hl. exact (proj1 (Forall_forall _ _) K6 x Hin).
    - rewrite Hl. exact (proj1 (Forall_forall _ _) K3 x Hin). }
  rewrite (option_list_map_some _ (fun c => (c, stc c))) by (intros c Hc; rewrite (proj1 (Hcs c Hc)); reflexivity).
  rewrite <- map_rev. destruct (rev (group_columns g')) as [|c0 r] eqn:Hrev.
  { exfalso. apply Hne. apply (f_equal (@rev _)) in Hrev. rewrite rev_involutive in Hrev. cbn in Hrev. rewrite Hrev in Hp. cbn in Hp.
    apply Permutation_nil in Hp. apply map_eq_nil in Hp. apply map_eq_nil in Hp. exact Hp. }
  cbn [map].
  assert (Hc0 : In c0 (group_columns g')) by (apply in_rev; rewrite Hrev; left; reflexivity).
  destruct (Hcs c0 Hc0) as [_ [Hck Hfr]].
  (* the components *)
  assert (Hcomps : fold_left (fun acc (x : column * state) =>
                  fold_left (fun acc nm => let a := (col_amp (fst x) * fst (snd nm))%C in
                                           dset leqb (fst nm) (a, Cnorm2 a) acc) (s_comps (snd x)) acc) (map (fun c => (c, stc c)) (group_columns g')) []
       = map (fun c => (name_string D (column_occ D c), (col_amp c, Cnorm2 (col_amp c)))) (group_columns g')).
  { transitivity (fold_left (fun acc nm => dset leqb (fst nm) (snd nm, Cnorm2 (snd nm)) acc)
                    (map (fun c => (name_string D (column_occ D c), col_amp c)) (group_columns g')) []).
    - generalize (@nil (list nat * (C * R))). generalize (group_columns g'). intro l. induction l as [|c l IH]; intro acc; [reflexivity|].
      cbn [map fold_left fst snd]. unfold stc at 2. cbn [s_comps with_cum with_comps unit_comp fold_left fst snd].
      replace (col_amp c * RtoC 1)%C with (col_amp c) by (apply C_eq; cbn; ring). cbv zeta. apply IH.
    - rewrite fold_one_comp; cbn [map app].
      + rewrite map_map. reflexivity.
      + rewrite map_map. cbn [fst].
        assert (Hpo : Permutation (map (column_occ D) (group_columns g')) (map (column_occ D) (group_columns g))).
        { apply (Permutation_map (ess_occ_of D)) in Hp. rewrite !map_map in Hp.
          rewrite (map_ext (column_occ D) (fun x => ess_occ_of D (column_ess x)) (column_occ_ess D) (group_columns g')),
            (map_ext (column_occ D) (fun x => ess_occ_of D (column_ess x)) (column_occ_ess D) (group_columns g)). exact Hp. }
        rewrite <- (map_map (column_occ D) (name_string D)). apply map_inj_NoDup.
        * intros a b Ha Hb E. apply (name_string_inj D) in E; [exact E| |].
          -- apply in_map_iff in Ha. destruct Ha as [c [<- Hc]]. pose proof (proj1 (Forall_forall _ _) Hall' c Hc) as [_ [_ [_ [Kv _]]]]. exact (proj2 Kv).
          -- apply in_map_iff in Hb. destruct Hb as [c [<- Hc]]. pose proof (proj1 (Forall_forall _ _) Hall' c Hc) as [_ [_ [_ [Kv _]]]]. exact (proj2 Kv).
        * apply (Permutation_NoDup (Permutation_sym Hpo)). exact Hnd. }
  exists (map (fun c => (name_string D (column_occ D c), (col_amp c, Cnorm2 (col_amp c)))) (group_columns g')). split.
  - match goal with |- context [fold_left ?f (map (fun c => (c, stc c)) (group_columns g')) ?z] => 
      replace (fold_left f (map (fun c => (c, stc c)) (group_columns g')) z)
        with (map (fun c => (name_string D (column_occ D c), (col_amp c, Cnorm2 (col_amp c)))) (group_columns g'))
        by (symmetry; exact Hcomps) end.
    unfold copy_state, make_state.
    assert (Hk : check_state eps ncl (stc c0) = true).
    { apply check_state_iff. apply check_state_iff in Hck. destruct Hck as [_ [_ Hk3]]. unfold stc. cbn [s_cum s_comps s_classical with_cum with_comps].
      rewrite (Hcums c0 Hc0). pose proof (proj1 (Forall_forall _ _) Hall' c0 Hc0) as [_ [_ [_ [_ K5]]]]. pose proof (Cnorm2_nonneg (col_amp c0)).
      assert (0 <= g_cum g * Cnorm2 (col_amp c0) <= 1)%R.
      { split; [apply Rmult_le_pos; lra|]. apply Rle_trans with (1 * 1)%R; [|lra]. apply Rmult_le_compat; lra. }
      split; [lra|]. split; [|exact Hk3]. apply Forall_cons; [cbn; lra|constructor]. }
    rewrite Hk. unfold set_cumulative. rewrite (Hcums c0 Hc0).
    destruct (Rle_dec 0 (g_cum g)); [|lra]. destruct (Rle_dec (g_cum g) 1); [|lra]. cbn [option_map]. f_equal.
    rewrite <- Hfr. unfold frame, stc.
    change (drop_resolution (with_comps (with_cum (with_cum (with_comps (drop_resolution (lst c0)) (unit_comp (name_string D (column_occ D c0)))) (col_cum c0 * Cnorm2 (col_amp c0))) (g_cum g))
       (map (fun c => (name_string D (column_occ D c), (col_amp c, Cnorm2 (col_amp c)))) (group_columns g'))))
    with (with_comps (with_cum (drop_resolution (drop_resolution (lst c0))) (g_cum g)) (map (fun c => (name_string D (column_occ D c), (col_amp c, Cnorm2 (col_amp c)))) (group_columns g'))).
    rewrite drop_idem. reflexivity.
  - apply (Permutation_map (fun e => (name_string D (ess_occ_of D e), (ess_amp e, Cnorm2 (ess_amp e))))) in Hp. rewrite !map_map in Hp.
    rewrite (map_ext (fun c => (name_string D (column_occ D c), (col_amp c, Cnorm2 (col_amp c)))) (fun x => (name_string D (ess_occ_of D (column_ess x)), (ess_amp (column_ess x), Cnorm2 (ess_amp (column_ess x))))))
      by (intro; rewrite column_occ_ess; reflexivity).
    etransitivity; [exact Hp|]. apply Permutation_refl'. apply map_ext. intro. rewrite column_occ_ess. reflexivity.
Qed.

(** ** From a state to a group *)
Lemma column_of_plain st : resolution_of st = None -> column_of [st] = make_column 0 (RtoC 1) 1 0 1 [st].
Proof. intro H. unfold column_of. rewrite H. reflexivity. Qed.
Lemma group_of_state_plain st id : resolution_of st = None ->
  exists c, group_of_state st id = Group id (s_cum st) [(0, c)] /\ col_id c = 0 /\ col_group c = id /\ stamped c /\
    column_ess c = (RtoC 1, 1%R, s_cum st, [core_of st]).
Proof.
  intro H. unfold group_of_state. rewrite (column_of_plain st H). eexists. split; [reflexivity|].
  split; [reflexivity|]. split; [reflexivity|]. split; [apply stamped_make|].
  unfold col_with_cum. rewrite ess_make. unfold col_with_group, col_with_id, make_column.
  cbn [map snd col_states col_amp col_boson]. rewrite !core_stamp. reflexivity.
Qed.
Lemma group_of_state_ok st id : resolution_of st = None -> group_ok (group_of_state st id).
Proof.
  intro H. destruct (group_of_state_plain st id H) as [c [-> [H1 [H2 [H3 H4]]]]]. split; cbn [g_cols g_id g_cum].
  - constructor; [intros []|constructor].
  - apply Forall_cons; [|constructor]. cbn [fst snd]. split; [exact H1|]. split; [exact H2|]. split; [|exact H3]. exact (f_equal (fun e => snd (fst e)) H4).
Qed.
Lemma group_of_state_fine eps ncl st id : resolution_of st = None -> splittable eps ncl st -> group_fine eps ncl (group_of_state st id).
Proof.
  intros H Hs. destruct (group_of_state_plain st id H) as [c [-> [H1 [H2 [H3 H4]]]]].
  unfold group_fine, group_columns; cbn [g_cols map snd]. apply Forall_cons; [|constructor].
  apply (col_ok_ess eps ncl (Column 0 (RtoC 1) 1 0 (s_cum st) [st])); [rewrite H4; reflexivity|]. apply Forall_cons; [exact Hs|constructor].
Qed.
Lemma group_of_state_terms st id : resolution_of st = None ->
  group_terms (group_of_state st id) = map (fun x => (fst x, 1%R, s_cum st, [snd x])) (choices st).
Proof.
  intro H. destruct (group_of_state_plain st id H) as [c [-> [H1 [H2 [H3 H4]]]]].
  unfold group_terms, group_columns; cbn [g_cols map snd flat_map]. rewrite app_nil_r.
  rewrite (expand_ess c (Column 0 (RtoC 1) 1 0 (s_cum st) [st])) by (rewrite H4; reflexivity).
  unfold expand; cbn [col_amp col_boson col_cum col_states terms].
  induction (choices st) as [|[a k] l IH]; [reflexivity|]. cbn [flat_map]. rewrite map_app, IH. cbn [map fst snd app].
  f_equal. do 3 f_equal. apply C_eq; cbn; ring.
Qed.

Lemma single_photon_group_spec D eps ncl g : 1 <= dN D ->
  Forall (fun c => Forall (fun st => check_state eps ncl st = true) (col_states c) /\ Forall (one_component D) (col_states c)) (group_columns g) ->
  single_photon_group D eps ncl g = Some (Group (g_id g) (g_cum g) (map (fun kc => (fst kc, resolved_column D (snd kc))) (g_cols g))).
Proof.
  intros HN H. unfold single_photon_group, map_columns.
  rewrite (option_list_map_some _ (fun kc => (fst kc, resolved_column D (snd kc)))); [reflexivity|].
  intros kc Hkc. destruct (proj1 (Forall_forall _ _) H (snd kc) (in_map snd _ _ Hkc)) as [H1 H2].
  rewrite (single_photon_column_spec D eps ncl (snd kc) HN H1 H2). reflexivity.
Qed.
Lemma parts_check D eps ncl st : check_state eps ncl st = true -> one_component D st -> probs_ok st ->
  Forall (fun s => check_state eps ncl s = true) (parts_of D st).
Proof.
  intros Hck [vs [a [p [Hv Hs]]]] Hp. assert (Hpa : p = Cnorm2 a) by (apply (Hp (name_string D vs)); rewrite Hs; left; reflexivity).
  unfold parts_of. rewrite (first_values_one D st vs a p Hv Hs). unfold first_amp. rewrite Hs.
  apply check_state_iff in Hck. destruct Hck as [K1 [K2 K3]]. rewrite Hs in K2. pose proof (Forall_inv K2) as K4. cbn in K4. rewrite Hpa in K4.
  assert (G : forall nm, check_state eps ncl (with_comps st [(nm, (a, Cnorm2 a))]) = true).
  { intro nm. apply check_state_iff. cbn. split; [exact K1|]. split; [|exact K3]. apply Forall_cons; [exact K4|constructor]. }
  unfold parts. destruct (0 <? sum_values vs).
  - apply Forall_map. apply Forall_forall. intros x _. apply G.
  - apply Forall_cons; [apply G|constructor].
Qed.
Lemma probs_ok_core a b : core_of a = core_of b -> probs_ok a -> probs_ok b.
Proof. intro H. unfold probs_ok. rewrite (core_comps _ _ H). exact (fun x => x). Qed.
Lemma resolved_group_ok D g : group_ok g -> group_ok (Group (g_id g) (g_cum g) (map (fun kc => (fst kc, resolved_column D (snd kc))) (g_cols g))).
Proof.
  intros [H1 H2]. split; cbn [g_cols g_id g_cum].
  - unfold dkeys. rewrite map_map. cbn [fst]. exact H1.
  - apply Forall_map. revert H2. apply Forall_impl. intros kc [K1 [K2 [K3 K4]]]. cbn [fst snd].
    split; [exact K1|]. split; [exact K2|]. split; [exact K3|]. apply stamped_make.
Qed.
Lemma resolved_fine D eps ncl c : 1 <= dN D -> Forall (one_component D) (col_states c) -> Forall probs_ok (col_states c) ->
  Forall (fun st => check_state eps ncl st = true) (col_states c) -> col_ok eps ncl (resolved_column D c).
Proof.
  intros HN Ho Hp Hc. unfold col_ok, resolved_column, make_column; cbn [col_states]. apply splittable_stamp.
  apply Forall_forall. intros s Hs. apply in_flat_map in Hs. destruct Hs as [st [Hst Hs]].
  pose proof (proj1 (Forall_forall _ _) Ho st Hst) as H1. pose proof (proj1 (Forall_forall _ _) Hp st Hst) as H2. pose proof (proj1 (Forall_forall _ _) Hc st Hst) as H3.
  pose proof (proj1 (Forall_forall _ _) (parts_check D eps ncl st H3 H1 H2) s Hs) as H4.
  destruct (proj1 (Forall_forall _ _) (parts_small D st HN H1) s Hs) as [vs [a [p [_ [_ E]]]]].
  split; [exact H4|]. rewrite E. split; [discriminate|]. cbn. lia.
Qed.
Lemma parts_frame D st : Forall (fun s => frame s = frame st) (parts_of D st).
Proof.
  unfold parts_of, parts. destruct (0 <? _).
  - apply Forall_map. apply Forall_forall. intros c _. reflexivity.
  - apply Forall_cons; [reflexivity|constructor].
Qed.
Lemma frame_core a b : core_of a = core_of b -> frame a = frame b.
Proof. intro H. unfold frame. rewrite (f_equal fst H : drop_resolution a = drop_resolution b). reflexivity. Qed.
