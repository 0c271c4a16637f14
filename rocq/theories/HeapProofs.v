From Coq Require Import Reals List Arith Lia Lra Bool Permutation Sorted.
From Coquelicot Require Import Complex.
From Verif Require Import Prelude NamesModel NamesSpec FockModel OpticalModel StateModel StateSpec CollectionModel EvalModel EvalSpec
  StateProofs ApplyProofs EvalProofs MeasureSpec MeasureProofs WfProofs HeapModel HeapSpec.
Import ListNotations.

(** ** Stores *)
Lemma put_length {A} (l : list A) a x : length (put l a x) = length l.
Proof.
  unfold put. rewrite app_length, firstn_length. pose proof (skipn_length a l) as H.
  destruct (skipn a l); cbn [length] in *; lia.
Qed.
Lemma put_same {A} (l : list A) a x d : a < length l -> nth a (put l a x) d = x.
Proof.
  intros H. unfold put. rewrite app_nth2; rewrite firstn_length_le by lia; [|lia]. rewrite Nat.sub_diag.
  pose proof (skipn_length a l) as Hs. destruct (skipn a l); cbn [length] in *; [lia|reflexivity].
Qed.
Lemma put_cons0 {A} (y : A) l x : put (y :: l) 0 x = x :: l.
Proof. reflexivity. Qed.
Lemma put_consS {A} (y : A) l a x : put (y :: l) (S a) x = y :: put l a x.
Proof. reflexivity. Qed.
Lemma put_other {A} (l : list A) : forall a b x d, a <> b -> nth b (put l a x) d = nth b l d.
Proof.
  induction l as [|y l IH]; intros a b x d H.
  - destruct a, b; reflexivity.
  - destruct a as [|a].
    + rewrite put_cons0. destruct b; [lia|reflexivity].
    + rewrite put_consS. destruct b as [|b]; [reflexivity|]. cbn [nth]. apply IH. lia.
Qed.
Lemma put_out {A} (l : list A) a x : length l <= a -> put l a x = l.
Proof. intros H. unfold put. rewrite firstn_all2, skipn_all2 by lia. apply app_nil_r. Qed.
Lemma put_app {A} (l1 l2 : list A) a x : length l1 <= a -> put (l1 ++ l2) a x = l1 ++ put l2 (a - length l1) x.
Proof.
  intros H. unfold put. rewrite firstn_app, skipn_app, firstn_all2, (skipn_all2 l1) by lia. cbn [app]. now rewrite <- app_assoc.
Qed.
Lemma put_id {A} (l : list A) a d : put l a (nth a l d) = l.
Proof. revert a. induction l as [|y l IH]; intros [|a]; cbn; auto. unfold put in *. cbn. f_equal. apply IH. Qed.

Lemma list_at_set_same h a l : a < length (hp_lists h) -> list_at (set_list h a l) a = l.
Proof. intros H. unfold list_at, set_list. cbn. now apply put_same. Qed.
Lemma list_at_set_other h a b l : a <> b -> list_at (set_list h a l) b = list_at h b.
Proof. intros H. unfold list_at, set_list. cbn. now apply put_other. Qed.
Lemma state_at_set_list h a l b : state_at (set_list h a l) b = state_at h b.
Proof. reflexivity. Qed.
Lemma list_at_set_state h a s b : list_at (set_state h a s) b = list_at h b.
Proof. reflexivity. Qed.
Lemma state_at_set_same h a s : a < length (hp_states h) -> state_at (set_state h a s) a = s.
Proof. intros H. unfold state_at, set_state. cbn. now apply put_same. Qed.
Lemma state_at_set_other h a b s : a <> b -> state_at (set_state h a s) b = state_at h b.
Proof. intros H. unfold state_at, set_state. cbn. now apply put_other. Qed.
Lemma list_at_new h l a : a < length (hp_lists h) -> list_at (fst (new_list h l)) a = list_at h a.
Proof. intros H. unfold list_at, new_list. cbn. now rewrite app_nth1. Qed.
Lemma list_at_new_same h l : list_at (fst (new_list h l)) (length (hp_lists h)) = l.
Proof. unfold list_at, new_list. cbn. rewrite app_nth2 by lia. now rewrite Nat.sub_diag. Qed.

(** ** untouched *)
Lemma untouched_refl h : untouched h h.
Proof. exists [], []. now rewrite !app_nil_r. Qed.
Lemma untouched_trans h1 h2 h3 : untouched h1 h2 -> untouched h2 h3 -> untouched h1 h3.
Proof.
  intros (l1 & s1 & A1 & B1) (l2 & s2 & A2 & B2). exists (l1 ++ l2), (s1 ++ s2).
  now rewrite A2, B2, A1, B1, <- !app_assoc.
Qed.
Lemma untouched_list h h' a : untouched h h' -> a < length (hp_lists h) -> list_at h' a = list_at h a.
Proof. intros (l & s & E & _) H. unfold list_at. rewrite E. now rewrite app_nth1. Qed.
Lemma untouched_state h h' a : untouched h h' -> a < length (hp_states h) -> state_at h' a = state_at h a.
Proof. intros (l & s & _ & E) H. unfold state_at. rewrite E. now rewrite app_nth1. Qed.
Lemma untouched_len h h' : untouched h h' -> length (hp_lists h) <= length (hp_lists h') /\ length (hp_states h) <= length (hp_states h').
Proof. intros (l & s & -> & ->). rewrite !app_length. lia. Qed.
Lemma untouched_new_list h l : untouched h (fst (new_list h l)).
Proof. exists [l], []. cbn. now rewrite app_nil_r. Qed.
Lemma untouched_new_state h s : untouched h (fst (new_state h s)).
Proof. exists [], [s]. cbn. now rewrite app_nil_r. Qed.
Lemma untouched_set_list h0 h a l : untouched h0 h -> length (hp_lists h0) <= a -> untouched h0 (set_list h a l).
Proof. intros (ls & ss & A & B) H. unfold set_list. cbn. exists (put ls (a - length (hp_lists h0)) l), ss. cbn. rewrite A. now rewrite put_app. Qed.
Lemma untouched_set_state h0 h a s : untouched h0 h -> length (hp_states h0) <= a -> untouched h0 (set_state h a s).
Proof. intros (ls & ss & A & B) H. exists ls, (put ss (a - length (hp_states h0)) s). cbn. rewrite B. now rewrite put_app. Qed.

Lemma deref_untouched h h' a : untouched h h' ->
  a < length (hp_states h) -> h_cl (state_at h a) < length (hp_lists h) ->
  (forall l p, In (l, p) (h_res (state_at h a)) -> l < length (hp_lists h)) ->
  deref h' (state_at h' a) = deref h (state_at h a).
Proof.
  intros U Ha Hl Hr. rewrite (untouched_state h h') by auto. unfold deref. rewrite (untouched_list h h') by auto. f_equal.
  apply map_ext_in. intros [l p] H. cbn [fst snd]. rewrite (untouched_list h h'); eauto.
Qed.
Lemma view_untouched h h' cs : valid_coll h cs -> untouched h h' -> view h' cs = view h cs.
Proof.
  intros V U. unfold view. apply map_ext_in. intros [i a] H. cbn [fst snd]. f_equal.
  destruct (V i a H) as (A & B & D). now apply deref_untouched.
Qed.
Lemma valid_untouched h h' cs : valid_coll h cs -> untouched h h' -> valid_coll h' cs.
Proof.
  intros V U i a H. destruct (V i a H) as (A & B & D). pose proof (untouched_len h h' U) as [L1 L2].
  rewrite (untouched_state h h') by auto. split; [lia|]. split; [lia|]. intros l p Hr. specialize (D l p Hr). lia.
Qed.

(** ** Allocation of one state *)
(** State object [a] of [h] was made after [h0], has its own new list of classical values, and its
    history is that of a state of [cs0] followed by the records [more] with [Q own_list more]. *)
Definition born (Q : nat -> list (nat * R) -> Prop) (h0 : heap) (cs0 : hcoll) (h : heap) (a : nat) : Prop :=
  length (hp_states h0) <= a < length (hp_states h) /\
  length (hp_lists h0) <= h_cl (state_at h a) < length (hp_lists h) /\
  exists i0 a0 more, In (i0, a0) cs0 /\ h_res (state_at h a) = h_res (state_at h0 a0) ++ more /\
    Q (h_cl (state_at h a)) more.

Record Made (Q : nat -> list (nat * R) -> Prop) (h0 : heap) (cs0 : hcoll) (h : heap) (out : hcoll) : Prop := {
  made_untouched : untouched h0 h;
  made_born : forall i a, In (i, a) out -> born Q h0 cs0 h a;
  made_states : NoDup (map snd out);
  made_lists : NoDup (map (fun it => h_cl (state_at h (snd it))) out) }.

Lemma dset_cases {V} k (v : V) d :
  dset leqb k v d = d ++ [(k, v)] \/
  exists d1 k' v' d2, d = d1 ++ (k', v') :: d2 /\ dset leqb k v d = d1 ++ (k', v) :: d2.
Proof.
  induction d as [|[k0 v0] d IH]; [now left|]. cbn [dset]. destruct (leqb k k0) eqn:E.
  - right. exists [], k0, v0, d. auto.
  - destruct IH as [->|(d1 & k' & v' & d2 & -> & ->)]; [now left|]. right. exists ((k0, v0) :: d1), k', v', d2. auto.
Qed.
Lemma dset_view h n st k d : deref h (state_at h n) = st -> view h (dset leqb k n d) = dset leqb k st (view h d).
Proof.
  intros <-. induction d as [|[k0 v0] d IH]; [reflexivity|]. cbn [dset view map fst snd]. destruct (leqb k k0); [reflexivity|].
  cbn [map fst snd]. f_equal. exact IH.
Qed.

Lemma NoDup_replace {A} (l1 l2 : list A) x y : NoDup (l1 ++ x :: l2) -> ~ In y (l1 ++ l2) -> NoDup (l1 ++ y :: l2).
Proof.
  intros H Hn. apply NoDup_remove in H. destruct H as [H _].
  apply (Permutation_NoDup (Permutation_middle l1 l2 y)). now constructor.
Qed.

Section Alloc.
  Variables (Q : nat -> list (nat * R) -> Prop) (h0 : heap) (cs0 : hcoll).

  Lemma born_later h h' a : untouched h h' -> born Q h0 cs0 h a -> born Q h0 cs0 h' a.
  Proof.
    intros U (A & B & D). pose proof (untouched_len h h' U) as [L1 L2]. unfold born.
    rewrite (untouched_state h h') by (auto; lia). split; [lia|]. split; [lia|exact D].
  Qed.

  Variables (h : heap) (out : hcoll) (l : list R) (s : hstate) (i0 : ident) (a0 : nat) (more : list (nat * R)).
  Let n := length (hp_states h).
  Let h' := fst (new_state (fst (new_list h l)) s).

  Lemma alloc_untouched : untouched h h'.
  Proof. eapply untouched_trans; [apply untouched_new_list|apply untouched_new_state]. Qed.
  Lemma alloc_state : state_at h' n = s.
  Proof. unfold h', n, state_at, new_state, new_list. cbn. rewrite app_nth2 by lia. now rewrite Nat.sub_diag. Qed.
  Lemma alloc_list : list_at h' (length (hp_lists h)) = l.
  Proof. unfold h', list_at, new_state, new_list. cbn. rewrite app_nth2 by lia. now rewrite Nat.sub_diag. Qed.

  Hypothesis (HM : Made Q h0 cs0 h out) (Hcl : h_cl s = length (hp_lists h)) (H0 : In (i0, a0) cs0)
    (Hres : h_res s = h_res (state_at h0 a0) ++ more) (Hmore : Q (h_cl s) more).

  Lemma alloc_born : born Q h0 cs0 h' n.
  Proof.
    destruct HM as [U _ _ _]. pose proof (untouched_len h0 h U) as [L1 L2]. unfold born. rewrite alloc_state, Hcl.
    unfold h', n, new_state, new_list. cbn. rewrite !app_length. cbn. split; [lia|]. split; [lia|].
    exists i0, a0, more. rewrite <- Hcl. auto.
  Qed.

  Lemma alloc_new_state : ~ In n (map snd out).
  Proof.
    intros H. apply in_map_iff in H. destruct H as ([i a] & Ha & H). cbn in Ha. subst a.
    destruct HM as [_ B _ _]. apply B in H. destruct H as (H & _). unfold n in H. lia.
  Qed.
  Lemma alloc_old_cl i a : In (i, a) out -> state_at h' a = state_at h a.
  Proof. intros H. destruct HM as [_ B _ _]. apply B in H. destruct H as (H & _). apply untouched_state; [apply alloc_untouched|lia]. Qed.
  Lemma alloc_new_list : ~ In (h_cl s) (map (fun it => h_cl (state_at h (snd it))) out).
  Proof.
    intros H. apply in_map_iff in H. destruct H as ([i a] & Ha & H). cbn [snd] in Ha.
    destruct HM as [_ B _ _]. apply B in H. destruct H as (_ & H & _). rewrite Ha, Hcl in H. lia.
  Qed.

  Lemma made_perm d : (forall it, In it d -> In it out \/ snd it = n) -> NoDup (map snd d) ->
    Made Q h0 cs0 h' d.
  Proof.
    intros Hin ND. constructor; auto.
    - eapply untouched_trans; [apply HM|apply alloc_untouched].
    - intros i a H. apply Hin in H. destruct H as [H|H]; cbn in H.
      + eapply born_later; [apply alloc_untouched|]. eapply HM; eauto.
      + subst a. apply alloc_born.
    - assert (K : forall a, In a (map snd d) -> In a (map snd out) \/ a = n).
      { intros a H. apply in_map_iff in H. destruct H as (it & <- & H). apply Hin in H. destruct H as [H|H]; auto. left. now apply in_map. }
      rewrite <- map_map with (f := snd) (g := fun a => h_cl (state_at h' a)).
      destruct HM as [_ B NS NC]. rewrite <- map_map with (f := snd) (g := fun a => h_cl (state_at h a)) in NC.
      assert (Inj : forall a b, (In a (map snd out) \/ a = n) -> (In b (map snd out) \/ b = n) ->
                h_cl (state_at h' a) = h_cl (state_at h' b) -> a = b).
      { assert (Old : forall a, In a (map snd out) -> state_at h' a = state_at h a /\ h_cl (state_at h a) <> h_cl s /\ a <> n).
        { intros a H. apply in_map_iff in H. destruct H as ([i a'] & <- & H). cbn [snd]. split; [eapply alloc_old_cl; eauto|]. split.
          - intros E. apply alloc_new_list. apply in_map_iff. exists (i, a'). auto.
          - intros ->. apply alloc_new_state. apply in_map_iff. exists (i, n). auto. }
        intros a b [Ha| ->] [Hb| ->] E; auto.
        - destruct (Old a Ha) as (Ea & _), (Old b Hb) as (Eb & _). rewrite Ea, Eb in E.
          clear - NC E Ha Hb. induction (map snd out) as [|x r IH]; [destruct Ha|]. cbn [map] in NC. inversion NC; subst.
          destruct Ha as [->|Ha], Hb as [->|Hb]; auto.
          + exfalso. apply H1. rewrite E. now apply (in_map (fun a => h_cl (state_at h a))).
          + exfalso. apply H1. rewrite <- E. now apply (in_map (fun a => h_cl (state_at h a))).
        - destruct (Old a Ha) as (Ea & N & _). rewrite Ea, alloc_state in E. contradiction.
        - destruct (Old b Hb) as (Ea & N & _). rewrite Ea, alloc_state in E. congruence. }
      clear - ND K Inj. induction (map snd d) as [|x r IH]; [constructor|]. inversion ND; subst. cbn [map]. constructor.
      + intros H. apply in_map_iff in H. destruct H as (y & E & Hy). apply Inj in E; [subst; contradiction| |]; apply K; [now right|now left].
      + apply IH; auto. intros a Ha. apply K. now right.
  Qed.

  Lemma made_app i : Made Q h0 cs0 h' (out ++ [(i, n)]).
  Proof.
    apply made_perm.
    - intros it H. apply in_app_or in H. destruct H as [H|[<-|[]]]; auto.
    - rewrite map_app. cbn. apply NoDup_snoc; [apply HM|apply alloc_new_state].
  Qed.
  Lemma made_dset i : Made Q h0 cs0 h' (dset leqb i n out).
  Proof.
    destruct (dset_cases i n out) as [->|(d1 & k' & v' & d2 & E & ->)]; [apply made_app|].
    apply made_perm.
    - intros it H. rewrite E. apply in_app_or in H. destruct H as [H|[<-|H]]; auto; left; apply in_or_app; [now left|right; now right].
    - rewrite map_app. cbn [map snd]. apply NoDup_replace with (x := v').
      + pose proof (made_states _ _ _ _ _ HM) as H. rewrite E, map_app in H. exact H.
      + intros H. apply alloc_new_state. rewrite E, map_app. cbn [map snd]. apply in_app_or in H. apply in_or_app.
        destruct H; [now left|right; now right].
  Qed.
End Alloc.

Lemma Made_nil Q h cs : Made Q h cs h [].
Proof. constructor; [apply untouched_refl|intros i a []|constructor|constructor]. Qed.

Lemma valid_made (Q : nat -> list (nat * R) -> Prop) h0 cs0 h out : valid_coll h0 cs0 ->
  (forall c more l p, Q c more -> In (l, p) more -> l = c) -> Made Q h0 cs0 h out -> valid_coll h out.
Proof.
  intros V HQ M i a H. destruct M as [U B _ _]. pose proof (untouched_len _ _ U) as [L1 L2].
  destruct (B i a H) as (X & Y & i0 & a0 & more & H0 & Hr & Hm). split; [lia|]. split; [lia|].
  intros l p Hl. rewrite Hr in Hl. apply in_app_or in Hl. destruct Hl as [Hl|Hl].
  - destruct (V i0 a0 H0) as (_ & _ & K). apply K in Hl. lia.
  - apply (HQ _ _ _ _ Hm) in Hl. lia.
Qed.

(** ** The copying nodes *)
Definition no_more (c : nat) (more : list (nat * R)) : Prop := more = [].
Definition own_list (c : nat) (more : list (nat * R)) : Prop := exists p, more = [(c, p)].
Definition either (c : nat) (more : list (nat * R)) : Prop := no_more c more \/ own_list c more.
Lemma no_more_own c more l p : no_more c more -> In (l, p) more -> l = c.
Proof. intros ->. intros []. Qed.
Lemma own_list_own c more l p : own_list c more -> In (l, p) more -> l = c.
Proof. intros [q ->] [[= <- <-]|[]]. reflexivity. Qed.
Lemma either_own c more l p : either c more -> In (l, p) more -> l = c.
Proof. intros [H|H]; [now apply no_more_own|now apply own_list_own]. Qed.

Lemma hcopy_alloc h s : hcopy h s =
  (fst (new_state (fst (new_list h (list_at h (h_cl s)))) (h_with_cl s (length (hp_lists h)))), length (hp_states h)).
Proof. reflexivity. Qed.

(** What a copy shows to the user. *)
Lemma deref_copy h0 h a comps : untouched h0 h -> a < length (hp_states h0) -> h_cl (state_at h0 a) < length (hp_lists h0) ->
  (forall l p, In (l, p) (h_res (state_at h0 a)) -> l < length (hp_lists h0)) ->
  let s := h_with_comps (state_at h a) comps in
  let h' := fst (hcopy h s) in
  deref h' (state_at h' (snd (hcopy h s))) = with_comps (deref h0 (state_at h0 a)) comps.
Proof.
  intros U Ha Hc Hr s h'. unfold h'. rewrite hcopy_alloc. cbn [fst snd]. rewrite alloc_state. unfold s.
  rewrite (untouched_state h0 h) by auto. unfold deref at 1. cbn [h_with_cl h_with_comps h_init h_cum h_comps h_cl h_res h_aux].
  rewrite alloc_list. rewrite (untouched_list h0 h) by auto. unfold with_comps, deref. cbn [s_init s_cum s_comps s_classical s_results s_aux]. f_equal.
  apply map_ext_in. intros [l p] H. cbn [fst snd]. f_equal.
  transitivity (list_at h l); [|apply untouched_list with (h := h0); eauto].
  apply untouched_list; [apply alloc_untouched|].
  apply Hr in H. pose proof (untouched_len h0 h U). lia.
Qed.

Lemma hcopy_with_made h0 cs0 results : valid_coll h0 cs0 -> forall cs, incl cs cs0 -> forall h out,
  Made no_more h0 cs0 h out ->
  let r := fold_left (fun (acc : heap * hcoll) (p : (ident * nat) * (ident * state)) =>
      let s := state_at (fst acc) (snd (fst p)) in
      let (h', a) := hcopy (fst acc) (h_with_comps s (s_comps (snd (snd p)))) in
      (h', snd acc ++ [(fst (snd p), a)]))
    (combine cs results) (h, out) in
  Made no_more h0 cs0 (fst r) (snd r) /\ untouched h (fst r) /\
  view (fst r) (snd r) = view h out ++
    map (fun p => (fst (snd p), with_comps (deref h0 (state_at h0 (snd (fst p)))) (s_comps (snd (snd p))))) (combine cs results).
Proof.
  intros V cs. revert results. induction cs as [|[i a] cs IH]; intros results Hin h out M r.
  - cbn in r. subst r. cbn [fst snd map]. rewrite app_nil_r. split; [auto|]. split; [apply untouched_refl|auto].
  - destruct results as [|[j st] results].
    { cbn in r. subst r. cbn [fst snd map]. rewrite app_nil_r. split; [auto|]. split; [apply untouched_refl|auto]. }
    subst r. cbn [combine fold_left]. cbv zeta. cbn [fst snd].
    pose proof (made_untouched _ _ _ _ _ M) as U. destruct (V i a (Hin _ (or_introl eq_refl))) as (V1 & V2 & V3).
    set (s := h_with_comps (state_at h a) (s_comps st)).
    pose proof (deref_copy h0 h a (s_comps st) U V1 V2 V3) as HD. cbv zeta in HD. fold s in HD.
    destruct (hcopy h s) as [h1 n] eqn:E. cbn [fst snd] in HD.
    assert (M1 : Made no_more h0 cs0 h1 (out ++ [(j, n)])).
    { rewrite hcopy_alloc in E. injection E as <- <-. apply made_app with (i0 := i) (a0 := a) (more := []); auto.
      - apply Hin. now left.
      - unfold s. cbn. rewrite (untouched_state h0 h) by auto. now rewrite app_nil_r.
      - reflexivity. }
    assert (U1 : untouched h h1). { rewrite hcopy_alloc in E. injection E as <- <-. apply alloc_untouched. }
    specialize (IH results (fun x H => Hin x (or_intror H)) h1 (out ++ [(j, n)]) M1). cbv zeta in IH.
    destruct IH as (I1 & I2 & I3). split; [exact I1|]. split; [eapply untouched_trans; eauto|].
    etransitivity; [exact I3|]. unfold view at 1. rewrite map_app. cbn [map fst snd]. rewrite <- app_assoc. f_equal.
    + assert (Vo : valid_coll h out). { apply (valid_made no_more h0 cs0); auto. exact no_more_own. }
      change (view h1 out = view h out). now apply view_untouched.
    + cbn [app]. f_equal. now rewrite HD.
Qed.

Lemma hcopy_with_spec h cs results : valid_coll h cs ->
  let r := hcopy_with h cs results in
  Made no_more h cs (fst r) (snd r) /\
  view (fst r) (snd r) = map (fun p => (fst (snd p), with_comps (deref h (state_at h (snd (fst p)))) (s_comps (snd (snd p))))) (combine cs results).
Proof.
  intros V r. destruct (hcopy_with_made h cs results V cs (incl_refl _) h [] (Made_nil _ _ _)) as (A & B & D).
  split; auto.
Qed.

(** ** Measurements *)
Lemma perform_fields D ncl eps opt cl st sts s : perform_measurement D ncl eps opt cl st = Some sts -> In s sts ->
  exists p, s_results s = s_results st ++ [(s_classical s, p)].
Proof.
  unfold perform_measurement. intros E H. apply option_list_some in E.
  assert (Hs : In (Some s) (map Some sts)) by now apply in_map.
  rewrite <- E in Hs. apply in_map_iff in Hs. destruct Hs as (g & Hg & _). unfold collapsed_state in Hg.
  destruct (Req_EM_T _ _); [discriminate|]. unfold copy_state, make_state in Hg. destruct (check_state _ _ st); [|discriminate].
  assert (Hset : forall x q y, set_cumulative x q = Some y -> s_results y = s_results x).
  { intros x q y. unfold set_cumulative. destruct (Rle_dec 0 q), (Rle_dec q 1); try discriminate. now intros [= <-]. }
  match type of Hg with context [match ?o with Some _ => _ | None => _ end] =>
    destruct o as [st1|] eqn:E1 in Hg; [|discriminate] end.
  assert (R1 : s_results st1 = s_results st).
  { destruct (set_cumulative st _) eqn:E2 in E1; [injection E1 as <-; eapply Hset; eauto|eapply Hset; eauto]. }
  injection Hg as <-. cbn [s_results s_classical]. rewrite R1. eauto.
Qed.

Lemma last_prob_app l cl p i c co k a : last_prob (State i c co k (l ++ [(cl, p)]) a) = p.
Proof. unfold last_prob. cbn [s_results]. now rewrite rev_app_distr. Qed.

Lemma deref_measured h0 h a r : untouched h0 h -> a < length (hp_states h0) ->
  (forall l p, In (l, p) (h_res (state_at h0 a)) -> l < length (hp_lists h0)) ->
  (exists p, s_results (snd r) = s_results (deref h0 (state_at h0 a)) ++ [(s_classical (snd r), p)]) ->
  let x := hmeasured h (state_at h0 a) r in
  deref (fst x) (state_at (fst x) (snd (snd x))) = snd r.
Proof.
  intros U Ha Hr [p E] x. unfold x, hmeasured. cbv zeta.
  destruct r as [j [ri rc rco rcl rre ra]]. cbn [snd s_classical s_results s_init s_cum s_comps s_aux fst] in *.
  cbn [new_list new_state fst snd].
  set (s := HState _ _ _ _ _ _). set (h' := Heap _ _).
  assert (Hh : h' = fst (new_state (fst (new_list h rcl)) s)) by reflexivity.
  assert (Hs : state_at h' (length (hp_states h)) = s) by (rewrite Hh; apply alloc_state).
  cbn [hp_states]. rewrite Hs. unfold deref, s. cbn [h_init h_cum h_comps h_cl h_res h_aux].
  assert (Hl : list_at h' (length (hp_lists h)) = rcl) by (rewrite Hh; apply alloc_list). rewrite Hl. f_equal.
  rewrite map_app. cbn [map fst snd]. rewrite Hl, E, last_prob_app. f_equal. unfold deref. cbn [s_results].
  apply map_ext_in. intros [l q] H. cbn [fst snd]. f_equal.
  transitivity (list_at h l).
  - apply untouched_list; [rewrite Hh; apply alloc_untouched|]. apply Hr in H. pose proof (untouched_len h0 h U). lia.
  - apply untouched_list with (h := h0); eauto.
Qed.

Lemma hmeasured_made h0 cs0 h out i a r : valid_coll h0 cs0 -> In (i, a) cs0 -> Made own_list h0 cs0 h out ->
  let x := hmeasured h (state_at h0 a) r in
  Made own_list h0 cs0 (fst x) (dset leqb (fst (snd x)) (snd (snd x)) out) /\ untouched h (fst x).
Proof.
  intros V H0 M x. unfold x, hmeasured. cbn [new_list new_state fst snd]. set (s := HState _ _ _ _ _ _). set (h' := Heap _ _).
  assert (Hh : h' = fst (new_state (fst (new_list h (s_classical (snd r)))) s)) by reflexivity.
  cbn [hp_states]. rewrite Hh. split; [|apply alloc_untouched].
  apply made_dset with (i0 := i) (a0 := a) (more := [(length (hp_lists h), last_prob (snd r))]); auto.
  exists (last_prob (snd r)). reflexivity.
Qed.

Lemma hmeasure_made c k opt cl h0 cs0 : valid_coll h0 cs0 -> forall cs, incl cs cs0 -> forall h out,
  Made own_list h0 cs0 h out ->
  let num := measurement_number (c_nodes c) k in
  let hres := fold_left (fun (acc : option (heap * hcoll)) (it : ident * nat) =>
      match acc with
      | None => None
      | Some (h, out) =>
          let s := state_at h (snd it) in
          match perform_measurement (c_D c) (c_ncl c) (c_eps c) opt cl (deref h s) with
          | None => None
          | Some sts =>
              Some (fold_left (fun (a : heap * hcoll) js =>
                  let (h', r) := hmeasured (fst a) s (measured_identifier (fst it) num (fst js), snd js) in
                  (h', dset leqb (fst r) (snd r) (snd a))) (combine (seq 0 (length sts)) sts) (h, out))
          end
      end) cs (Some (h, out)) in
  let pres := fold_left (fun (acc : option items) (it : ident * state) =>
      match acc, perform_measurement (c_D c) (c_ncl c) (c_eps c) opt cl (snd it) with
      | Some out, Some sts =>
          Some (fold_left (fun o js => add_state (measured_identifier (fst it) num (fst js)) (snd js) o)
                  (combine (seq 0 (length sts)) sts) out)
      | _, _ => None
      end) (view h0 cs) (Some (view h out)) in
  match hres with
  | None => pres = None
  | Some r => Made own_list h0 cs0 (fst r) (snd r) /\ untouched h (fst r) /\ pres = Some (view (fst r) (snd r))
  end.
Proof.
  intros V cs. induction cs as [|[i a] cs IH]; intros Hin h out M num.
  - cbn. split; [auto|]. split; [apply untouched_refl|auto].
  - cbn [fold_left view map]. cbv zeta. cbn [fst snd].
    destruct (V i a (Hin _ (or_introl eq_refl))) as (V1 & V2 & V3).
    pose proof (made_untouched _ _ _ _ _ M) as U.
    assert (HD : deref h (state_at h a) = deref h0 (state_at h0 a)) by now apply deref_untouched.
    rewrite HD. rewrite (untouched_state h0 h) by auto.
    destruct (perform_measurement (c_D c) (c_ncl c) (c_eps c) opt cl (deref h0 (state_at h0 a))) as [sts|] eqn:Ep.
    + match goal with |- context [fold_left ?f (combine (seq 0 (length sts)) sts) (h, out)] => set (hf := f) end.
      match goal with |- context [fold_left ?f (combine (seq 0 (length sts)) sts) (view h out)] => set (pf := f) end.
      assert (G : forall l h1 out1, (forall js, In js l -> In (snd js) sts) -> untouched h h1 -> Made own_list h0 cs0 h1 out1 ->
        let r := fold_left hf l (h1, out1) in
        Made own_list h0 cs0 (fst r) (snd r) /\ untouched h (fst r) /\ view (fst r) (snd r) = fold_left pf l (view h1 out1)).
      { induction l as [|js l IHl]; intros h1 out1 Hl U1 M1; [cbn; auto|].
        cbn [fold_left].
        pose proof (hmeasured_made h0 cs0 h1 out1 i a (measured_identifier i num (fst js), snd js) V (Hin _ (or_introl eq_refl)) M1) as HM.
        assert (U01 : untouched h0 h1) by apply M1.
        pose proof (deref_measured h0 h1 a (measured_identifier i num (fst js), snd js) U01 V1 V3) as HX.
        cbv zeta in HM, HX. cbn [snd] in HX.
        specialize (HX (perform_fields _ _ _ _ _ _ _ _ Ep (Hl js (or_introl eq_refl)))).
        assert (Hf : fst (snd (hmeasured h1 (state_at h0 a) (measured_identifier i num (fst js), snd js))) = measured_identifier i num (fst js)) by reflexivity.
        assert (Hhf : hf (h1, out1) js = let x := hmeasured h1 (state_at h0 a) (measured_identifier i num (fst js), snd js) in
                   (fst x, dset leqb (fst (snd x)) (snd (snd x)) out1)) by reflexivity.
        cbv zeta in Hhf. rewrite Hhf. clear Hhf.
        destruct (hmeasured h1 (state_at h0 a) (measured_identifier i num (fst js), snd js)) as [h2 [j n]].
        cbn [fst snd] in HM, HX, Hf. subst j. destruct HM as [M2 U2].
        specialize (IHl h2 (dset leqb (measured_identifier i num (fst js)) n out1)
                     (fun y Hy => Hl y (or_intror Hy)) (untouched_trans _ _ _ U1 U2) M2).
        cbv zeta in IHl. cbn [fst snd]. destruct IHl as (I1 & I2 & I3). split; [exact I1|]. split; [exact I2|].
        etransitivity; [exact I3|]. f_equal. unfold pf at 1. etransitivity; [exact (dset_view _ _ (snd js) _ _ HX)|]. (* *) unfold add_state. f_equal.
        apply view_untouched; auto. eapply valid_made; [exact V| |exact M1]. exact own_list_own. }
      specialize (G (combine (seq 0 (length sts)) sts) h out).
      cbv zeta in G. destruct (fold_left hf (combine (seq 0 (length sts)) sts) (h, out)) as [h1 out1].
      cbn [fst snd] in G. destruct G as (G1 & G2 & G3).
      { intros [j s] H. apply in_combine_r in H. exact H. } { apply untouched_refl. } { exact M. }
      rewrite <- G3. specialize (IH (fun x H => Hin x (or_intror H)) h1 out1 G1). cbv zeta in IH. fold num in IH.
      unfold view in IH at 1. match goal with |- match ?a with Some _ => _ | None => _ end => destruct a as [[h2 out2]|] end.
      * destruct IH as (I1 & I2 & I3). split; [exact I1|]. split; [eapply untouched_trans; eauto|exact I3].
      * exact IH.
    + match goal with |- match ?a with Some _ => _ | None => _ end => assert (Hn : a = None) end.
      { clear. induction cs; cbn [fold_left]; auto. }
      rewrite Hn. clear. induction cs; cbn [map fold_left]; auto.
Qed.

Lemma hmeasure_spec c k opt cl h cs : valid_coll h cs ->
  match hmeasure c k opt cl h cs with
  | None => measure_items c k opt cl (view h cs) = None
  | Some r => Made own_list h cs (fst r) (snd r) /\ measure_items c k opt cl (view h cs) = Some (view (fst r) (snd r))
  end.
Proof.
  intros V. pose proof (hmeasure_made c k opt cl h cs V cs (incl_refl _) h [] (Made_nil _ _ _)) as H. cbv zeta in H.
  match type of H with match ?a with Some _ => _ | None => _ end => change (hmeasure c k opt cl h cs) with a; destruct a as [[h2 out2]|] end;
    [|exact H].
  destruct H as (A & B & D). split; [exact A|exact D].
Qed.

(** ** Classical nodes *)
Lemma h_with_cl_id s : h_with_cl s (h_cl s) = s.
Proof. now destruct s. Qed.

Lemma hclassical_state_spec ncl f nv chs h a h' :
  a < length (hp_states h) -> h_cl (state_at h a) < length (hp_lists h) ->
  hclassical_state ncl f nv chs h a = Some h' ->
  let s := state_at h a in let l := list_at h (h_cl s) in
  length (returned f l nv chs) = ncl /\
  (forall b, b <> h_cl s -> b < length (hp_lists h) -> list_at h' b = list_at h b) /\
  list_at h' (h_cl s) = fst (f l nv chs) /\
  (forall b, b <> a -> state_at h' b = state_at h b) /\
  length (hp_lists h) <= length (hp_lists h') /\ length (hp_states h') = length (hp_states h) /\
  exists b, state_at h' a = h_with_cl s b /\ b < length (hp_lists h') /\
    ((b = h_cl s /\ snd (f l nv chs) = None) \/ (b = length (hp_lists h) /\ snd (f l nv chs) <> None)) /\ list_at h' b = returned f l nv chs.
Proof.
  intros Ha Hl E s l. unfold hclassical_state in E. fold s in E, Hl. fold l in E.
  destruct (length (returned f l nv chs) =? ncl) eqn:El; [|discriminate]. apply Nat.eqb_eq in El. split; [exact El|].
  unfold returned in *. destruct (snd (f l nv chs)) as [x|].
  - destruct (new_list (set_list h (h_cl s) (fst (f l nv chs))) x) as [h2 b] eqn:En. injection E as <-.
    unfold new_list in En. injection En as <- <-. cbn [hp_lists hp_states set_list set_state].
    split; [|split; [|split; [|split; [|split]]]].
    + intros b Hb Hlt. unfold list_at. cbn. rewrite app_nth1 by (rewrite put_length; lia). now apply put_other; auto.
    + unfold list_at. cbn. rewrite app_nth1 by (rewrite put_length; lia). now apply put_same.
    + intros b Hb. unfold state_at. cbn. now apply put_other; auto.
    + rewrite app_length, put_length. lia.
    + now rewrite put_length.
    + exists (length (hp_lists h)). rewrite put_length. split; [|split; [|split]].
      * unfold state_at. cbn. now apply put_same.
      * rewrite app_length, put_length. cbn. lia.
      * right. split; [reflexivity|discriminate].
      * unfold list_at. cbn. rewrite app_nth2; rewrite put_length; [|lia]. now rewrite Nat.sub_diag.
  - injection E as <-. cbn [hp_lists hp_states set_list].
    split; [|split; [|split; [|split; [|split]]]].
    + intros b Hb Hlt. unfold list_at. cbn. now apply put_other; auto.
    + unfold list_at. cbn. now apply put_same.
    + reflexivity.
    + now rewrite put_length.
    + reflexivity.
    + exists (h_cl s). split; [|split; [|split]].
      * rewrite h_with_cl_id. reflexivity.
      * now rewrite put_length.
      * now left.
      * unfold list_at. cbn. now apply put_same.
Qed.

Lemma hclassical_none ncl f nv chs cs :
  fold_left (fun (acc : option heap) (it : ident * nat) =>
      match acc with None => None | Some h => hclassical_state ncl f nv chs h (snd it) end) cs None = None.
Proof. induction cs; cbn [fold_left]; auto. Qed.

(** An invariant of single steps is an invariant of the node. *)
Lemma hclassical_ind (I : heap -> Prop) ncl f nv chs cs :
  (forall h i a h', In (i, a) cs -> I h -> hclassical_state ncl f nv chs h a = Some h' -> I h') ->
  forall h h', I h -> hclassical ncl f nv chs h cs = Some h' -> I h'.
Proof.
  unfold hclassical. induction cs as [|[i a] cs IH]; intros Hs h h' HI E.
  - cbn in E. now injection E as <-.
  - cbn [fold_left snd] in E. destruct (hclassical_state ncl f nv chs h a) as [h1|] eqn:E1.
    + eapply IH; [| |exact E]; [|eapply Hs; eauto; now left]. intros h2 j b h3 Hin. apply Hs with (i := j). now right.
    + rewrite hclassical_none in E. discriminate.
Qed.

(** ** Evaluation *)
(** The node makes new State objects for its result. *)
Definition copying (nd : hnode) : bool := negb (is_classical nd).

Lemma Made_weaken (Q Q' : nat -> list (nat * R) -> Prop) h cs h' cs' : (forall c m, Q c m -> Q' c m) -> Made Q h cs h' cs' -> Made Q' h cs h' cs'.
Proof.
  intros HQ [A B D F]. constructor; auto. intros i a H. destruct (B i a H) as (X & Y & i0 & a0 & more & H0 & Hr & Hm).
  split; [exact X|]. split; [exact Y|]. exists i0, a0, more. auto.
Qed.
Lemma Made_copy h cs h' cs' : Made no_more h cs h' cs' -> Made either h cs h' cs'.
Proof. apply Made_weaken. now left. Qed.
Lemma Made_measure h cs h' cs' : Made own_list h cs h' cs' -> Made either h cs h' cs'.
Proof. apply Made_weaken. now right. Qed.

Lemma hrun_node_copying rnd c k h cs seed h' cs' seed' : valid_coll h cs -> copying (hnode_at c k) = true ->
  hrun_node rnd c k h cs seed = Some (h', cs', seed') -> Made either h cs h' cs'.
Proof.
  intros V Hc E. unfold hrun_node in E. destruct (hnode_at c k) as [f nv chs|nd]; [discriminate|].
  destruct nd; try discriminate.
  - destruct (custom_items _ _ _ _ _) as [[o s]|]; [|discriminate]. cbn [option_map fst snd] in E. injection E as E ->.
    pose proof (Made_copy _ _ _ _ (proj1 (hcopy_with_spec h cs o V))) as H. rewrite E in H. exact H.
  - destruct (_ || _); [discriminate|]. pose proof (hmeasure_spec (erase_circuit c) k opt cl h cs V) as H.
    destruct (hmeasure _ _ _ _ _ _) as [r|]; [|discriminate]. cbn [option_map] in E. injection E as -> _. apply Made_measure, H.
  - destruct (controlled_items _ _ _ _ _ _) as [o|]; [|discriminate]. cbn [option_map] in E. injection E as E ->.
    pose proof (Made_copy _ _ _ _ (proj1 (hcopy_with_spec h cs o V))) as H. rewrite E in H. exact H.
Qed.
Lemma hrun_optical_copying c ks h cs h' cs' : valid_coll h cs ->
  hrun_optical c ks h cs = Some (h', cs') -> Made no_more h cs h' cs'.
Proof.
  intros V E. unfold hrun_optical in E. destruct (apply_optical _ _ _ _ _ _ _) as [o|]; [|discriminate].
  cbn [option_map] in E. injection E as E. pose proof (proj1 (hcopy_with_spec h cs o V)) as H. rewrite E in H. exact H.
Qed.
Lemma node_at_erase c k : node_at (erase_circuit c) k = erase (hnode_at c k).
Proof.
  unfold node_at, hnode_at, erase_circuit. destruct (hc_base c). cbn [c_nodes].
  exact (map_nth erase (hc_nodes c) (HOther NSpectrum) k).
Qed.

(** Induction over the steps of heval: [I inds h cs] holds at the start and is kept by copying
    steps and by classical steps. *)
Lemma heval_ind rnd c (I : list nat -> heap -> hcoll -> Prop) :
  (forall inds h cs, I inds h cs -> I [] h cs) ->
  (forall inds h cs, I inds h cs -> valid_coll h cs) ->
  (forall k r h cs h' cs' rest, I (k :: r) h cs -> is_classical (hnode_at c k) = false -> Made either h cs h' cs' -> I rest h' cs') ->
  (forall k r h cs h' f nv chs, I (k :: r) h cs -> hnode_at c k = HClassical f nv chs ->
     hclassical (c_ncl (erase_circuit c)) f nv chs h cs = Some h' -> I r h' cs) ->
  forall fuel inds h cs seed h' cs' seed', I inds h cs ->
  heval fuel rnd c inds h cs seed = Ok (h', cs', seed') -> I [] h' cs'.
Proof.
  intros H0 HV Hc Hcl. induction fuel as [|fuel IH]; intros inds h cs seed h' cs' seed' HI E; [discriminate|].
  cbn [heval] in E. destruct inds as [|k r]; [injection E as <- <- <-; auto|].
  destruct (negb _); [discriminate|].
  assert (Hopt : is_optical (node_at (erase_circuit c) k) = true -> is_classical (hnode_at c k) = false).
  { rewrite node_at_erase. destruct (hnode_at c k); cbn; [discriminate|auto]. }
  destruct (is_optical _) eqn:Eo.
  - cbv zeta in E. destruct (hrun_optical c _ h cs) as [[h1 cs1]|] eqn:E1; [|discriminate].
    apply hrun_optical_copying in E1; [|eauto]. apply Made_copy in E1.
    eapply IH; [|exact E]. eapply Hc; eauto.
  - cbv zeta in E. destruct (hrun_node rnd c k h cs seed) as [[[h1 cs1] sd1]|] eqn:E1; [|discriminate].
    destruct (is_classical (hnode_at c k)) eqn:Ek.
    + destruct (hnode_at c k) as [f nv chs|] eqn:En; [|discriminate]. unfold hrun_node in E1. rewrite En in E1.
      destruct (hclassical _ f nv chs h cs) as [h2|] eqn:E2; [|discriminate]. cbn [option_map] in E1. injection E1 as -> <- <-.
      assert (I r h1 cs) by (eapply Hcl; eauto). eapply IH; [|exact E]. destruct (list_max (k :: r) <=? k); eauto.
    + apply hrun_node_copying in E1; [|eauto|unfold copying; now rewrite Ek]. eapply IH; [|exact E]. eapply Hc; eauto.
Qed.

(** ** Agreement with the pure model *)
Definition aligned (its out : items) : Prop :=
  Forall2 (fun a b : ident * state => snd b = with_comps (snd a) (s_comps (snd b))) its out.

Lemma aligned_refl its : aligned its its.
Proof. induction its as [|[i st] its IH]; constructor; auto. now destruct st. Qed.

Lemma with_comps_twice st c1 c2 : with_comps (with_comps st c1) c2 = with_comps st c2.
Proof. reflexivity. Qed.

Lemma aligned_dset its : forall cur i st c, aligned its cur -> dget leqb i cur = Some st ->
  aligned its (dset leqb i (with_comps st c) cur) /\ map fst (dset leqb i (with_comps st c) cur) = map fst cur.
Proof.
  intros cur i st c A. induction A as [|[i1 s1] [i2 s2] its cur H A IH]; intros E; [discriminate|].
  cbn [dget dset] in *. destruct (leqb i i2).
  - injection E as ->. split; [|reflexivity]. constructor; auto. cbn [snd] in *. rewrite H. reflexivity.
  - destruct (IH E) as [I1 I2]. split; [constructor; auto|]. cbn [map fst]. f_equal. exact I2.
Qed.

Lemma apply_optical_aligned D ncl eps full keys nds its out :
  apply_optical D ncl eps full keys nds its = Some out -> aligned its out /\ map fst out = map fst its.
Proof.
  unfold apply_optical. destruct (copy_items eps ncl its) as [its'|] eqn:E; [|discriminate].
  apply copy_items_some in E. destruct E as [-> _].
  destruct (if full then _ else _) as [gs|]; [|discriminate].
  assert (G : forall gs cur, aligned its cur /\ map fst cur = map fst its ->
    fold_left (fun acc g =>
               match acc, fock_state_matrix D keys nds (fst g) with
               | Some cur, Some (M, keep) =>
                   Some (fold_left (apply_to_identifier D eps M keep) (snd g) cur)
               | _, _ => None
               end) gs (Some cur) = Some out -> aligned its out /\ map fst out = map fst its).
  { clear gs. induction gs as [|[sel ids] gs IH]; intros cur Hcur E; cbn [fold_left] in E.
    - injection E as <-. exact Hcur.
    - cbn [fst snd] in E. destruct (fock_state_matrix D keys nds sel) as [[M keep]|].
      2:{ exfalso. clear - E. induction gs; cbn [fold_left] in E; [discriminate|auto]. }
      apply IH in E; auto. clear - Hcur. revert cur Hcur. induction ids as [|i ids IH]; intros cur Hcur; [exact Hcur|].
      cbn [fold_left]. apply IH. unfold apply_to_identifier. destruct (dget leqb i cur) as [st|] eqn:E; [|exact Hcur].
      destruct Hcur as [A B]. cbv zeta. destruct (aligned_dset its cur i st (components_from_vector D eps (apply_reduced M keep (state_vector D st))) A E) as [A' B'].
      split; [exact A'|]. etransitivity; [exact B'|exact B]. }
  apply G. split; [apply aligned_refl|reflexivity].
Qed.

Lemma controlled_aligned c t p vars tl its out : NoDup (map fst its) ->
  controlled_items c t p vars tl its = Some out -> aligned its out /\ map fst out = map fst its.
Proof.
  unfold controlled_items. set (stepf := fun _ _ => _).
  assert (Hnone : forall l, fold_left stepf l None = None) by (induction l; [reflexivity|cbn [fold_left]; auto]).
  assert (G : forall its done acc, NoDup (map fst (done ++ its)) -> aligned done acc /\ map fst acc = map fst done ->
     fold_left stepf its (Some acc) = Some out -> aligned (done ++ its) out /\ map fst out = map fst (done ++ its)).
  { clear its. induction its as [|[i st] its IH]; intros dn acc ND [A B] E; cbn [fold_left] in E.
    - injection E as <-. rewrite app_nil_r. auto.
    - unfold stepf at 2 in E. cbn [snd] in E. destruct (controlled_angles t p vars (s_classical st)) as [[t' p']|];
        [|rewrite Hnone in E; discriminate].
      destruct (apply_optical _ _ _ _ _ _ _) as [res|] eqn:Eo; [|rewrite Hnone in E; discriminate].
      apply apply_optical_aligned in Eo. destruct Eo as [Ao Bo].
      inversion Ao as [|x y l l' H1 H2]; subst. inversion H2; subst. cbn [fold_left] in E. destruct y as [j s]. cbn in Bo. injection Bo as ->.
      cbn [fst snd] in *. unfold add_state in E.
      assert (Hfr : ~ In i (dkeys acc)).
      { unfold dkeys. unfold ident in *. rewrite B. rewrite map_app in ND. cbn [map fst] in ND. apply NoDup_remove_2 in ND. intros H. apply ND. apply in_or_app. now left. }
      rewrite (dset_fresh leqb leqb_spec) in E by exact Hfr.
      replace (dn ++ (i, st) :: its) with ((dn ++ [(i, st)]) ++ its) in * by (now rewrite <- app_assoc).
      apply (IH (dn ++ [(i, st)]) (acc ++ [(i, s)])) in E; auto. split.
      + apply Forall2_app; auto.
      + rewrite !map_app. cbn [map fst]. f_equal. exact B. }
  intros ND E. apply (G its [] []) in E; auto. split; [constructor|reflexivity].
Qed.

Lemma custom_aligned c rnd M its seed out seed' : custom_items c rnd M its seed = Some (out, seed') ->
  aligned its out /\ NoDup (map fst out).
Proof.
  intros E. apply custom_items_inv in E. destruct E as [E ND]. split; [|apply ND; constructor].
  cbn [map app] in E. revert out E ND. induction its as [|[i st] its IH]; intros [|[j s] out] E ND; try discriminate; [constructor|].
  cbn [map snd] in E. injection E as E1 E2. constructor.
  - cbn [snd]. rewrite E1. reflexivity.
  - apply IH; auto. intros _. assert (H : NoDup (dkeys ((j, s) :: out))) by (apply ND; constructor). now inversion H.
Qed.

Lemma aligned_copy h cs out : aligned (view h cs) out ->
  map (fun p : (ident * nat) * (ident * state) => (fst (snd p), with_comps (deref h (state_at h (snd (fst p)))) (s_comps (snd (snd p))))) (combine cs out) = out.
Proof.
  revert out. induction cs as [|[i a] cs IH]; intros out A; inversion A as [|x [j s] l l' H1 H2]; subst; [reflexivity|].
  cbn [combine map fst snd] in *. f_equal; [|apply IH; exact H2]. f_equal. now symmetry.
Qed.

Lemma view_keys h cs : map fst (view h cs) = map fst cs.
Proof. unfold view. rewrite map_map. reflexivity. Qed.

(** Copying a collection on the heap. *)
Lemma hcopy_with_view h cs out : valid_coll h cs -> aligned (view h cs) out ->
  let r := hcopy_with h cs out in view (fst r) (snd r) = out /\ Made no_more h cs (fst r) (snd r).
Proof.
  intros V A r. destruct (hcopy_with_spec h cs out V) as [M E]. split; [|exact M]. unfold r. rewrite E. now apply aligned_copy.
Qed.

(** Distinct State objects with distinct lists of classical values; [al = false]: no list of
    classical values is recorded in a history of the collection. *)
Definition separate (al : bool) (h : heap) (cs : hcoll) : Prop :=
  valid_coll h cs /\ NoDup (map snd cs) /\ NoDup (map (fun it => h_cl (state_at h (snd it))) cs) /\
  (al = false -> not_recorded h cs cs).

Lemma separate_tail al h it cs : separate al h (it :: cs) -> separate al h cs.
Proof.
  intros (V & A & B & N). split; [intros i a H; apply (V i a); now right|]. inversion A; subst. inversion B; subst. split; [auto|]. split; [auto|].
  intros E i a H (i' & a' & p & K & L). apply (N E i a); [now right|]. exists i', a', p. split; [now right|auto].
Qed.

Lemma hclassical_view al pc f nv chs : forall cs h, separate al h cs ->
  (al = false \/ forall l, fst (f l nv chs) = l) ->
  match hclassical (c_ncl pc) f nv chs h cs with
  | None => classical_items pc (returned f) nv chs (view h cs) = None
  | Some h' =>
      classical_items pc (returned f) nv chs (view h cs) = Some (view h' cs) /\ separate al h' cs /\
      length (hp_lists h) <= length (hp_lists h') /\ length (hp_states h') = length (hp_states h) /\
      (forall i a, In (i, a) cs -> (h_cl (state_at h' a) = h_cl (state_at h a) \/ length (hp_lists h) <= h_cl (state_at h' a))
                       /\ h_res (state_at h' a) = h_res (state_at h a)) /\
      (forall b, ~ In b (map snd cs) -> state_at h' b = state_at h b) /\
      (forall l, l < length (hp_lists h) ->
         (forall l, fst (f l nv chs) = l) \/ ~ In l (map (fun it => h_cl (state_at h (snd it))) cs) -> list_at h' l = list_at h l)
  end.
Proof.
  induction cs as [|[i a] cs IH]; intros h S Hf.
  - cbn. split; [reflexivity|]. split; [exact S|]. split; [lia|]. split; [auto|]. split; [intros i a []|]. auto.
  - unfold hclassical. cbn [fold_left snd].
    pose proof S as (V & A & B & N). destruct (V i a (or_introl eq_refl)) as (Va & Vl & Vr).
    pose proof (hclassical_state_spec (c_ncl pc) f nv chs h a) as Sp.
    set (s := state_at h a) in *. set (l := list_at h (h_cl s)) in *.
    unfold classical_items. cbn [view map fst snd]. fold s.
    change (s_classical (deref h s)) with l.
    assert (Hnone : length (returned f l nv chs) <> c_ncl pc -> hclassical_state (c_ncl pc) f nv chs h a = None).
    { intros Hne. unfold hclassical_state. fold s. fold l. destruct (Nat.eqb_spec (length (returned f l nv chs)) (c_ncl pc)); [contradiction|reflexivity]. }
    destruct (Nat.eqb_spec (length (returned f l nv chs)) (c_ncl pc)) as [El|El].
    2:{ rewrite (Hnone El), hclassical_none. reflexivity. }
    destruct (hclassical_state (c_ncl pc) f nv chs h a) as [h1|] eqn:E1.
    2:{ exfalso. unfold hclassical_state in E1. fold s in E1. fold l in E1. rewrite El, Nat.eqb_refl in E1.
        destruct (snd (f l nv chs)) as [x|]; discriminate. }
    specialize (Sp h1 Va Vl eq_refl). cbv zeta in Sp.
    destruct Sp as (_ & P1 & P2 & P3 & P4 & P5 & b & Q1 & Q2 & Q3 & Q4). fold l in P2, Q3, Q4.
    assert (Hna : ~ In a (map snd cs)) by (cbn [map snd] in A; now inversion A).
    assert (Hncl : ~ In (h_cl s) (map (fun it => h_cl (state_at h (snd it))) cs)) by (cbn [map snd] in B; now inversion B).
    assert (St : forall j c, In (j, c) cs -> state_at h1 c = state_at h c).
    { intros j c H. apply P3. intros ->. apply Hna. now apply (in_map snd) in H. }
    assert (Cls : map (fun it => h_cl (state_at h1 (snd it))) cs = map (fun it => h_cl (state_at h (snd it))) cs).
    { apply map_ext_in. intros [j c] H. cbn [snd]. now rewrite (St j c). }
    (* lists that keep their contents in this step *)
    assert (Keep : forall x, x < length (hp_lists h) -> (forall l, fst (f l nv chs) = l) \/ x <> h_cl s -> list_at h1 x = list_at h x).
    { intros x Hx [H|H]; [|now apply P1]. destruct (Nat.eq_dec x (h_cl s)) as [->|Hne]; [|now apply P1]. rewrite P2. apply H. }
    assert (Hdrf : forall j c, In (j, c) cs -> deref h1 (state_at h1 c) = deref h (state_at h c)).
    { intros j c H. rewrite (St j c H). destruct (V j c (or_intror H)) as (W1 & W2 & W3). unfold deref. f_equal.
      - apply P1; auto. intros E. apply Hncl. rewrite <- E. apply in_map_iff. exists (j, c). auto.
      - apply map_ext_in. intros [x p] Hx. cbn [fst snd]. f_equal. apply Keep; [eauto|].
        destruct Hf as [Hal|Hf]; [right|now left]. intros ->. apply (N Hal i a (or_introl eq_refl)). exists j, c, p.
        split; [now right|]. exact Hx. }
    assert (Hvw : view h1 cs = view h cs).
    { unfold view. apply map_ext_in. intros [j c] H. cbn [fst snd]. f_equal. now apply (Hdrf j). }
    assert (S1 : separate al h1 cs).
    { apply separate_tail in S. destruct S as (V' & A' & B' & N'). split; [|split; [auto|split]].
      - intros j c H. rewrite (St j c H). destruct (V' j c H) as (W1 & W2 & W3). split; [lia|]. split; [lia|].
        intros x p Hx. specialize (W3 x p Hx). lia.
      - rewrite Cls. exact B'.
      - intros Hal j c H (j' & c' & p & K & L). apply (N' Hal j c H). exists j', c', p. split; auto.
        now rewrite <- (St j' c' K), <- (St j c H). }
    specialize (IH h1 S1 Hf). unfold hclassical in IH. fold (hclassical (c_ncl pc) f nv chs h1 cs) in *.
    rewrite Hvw in IH. unfold classical_items in IH.
    destruct (hclassical (c_ncl pc) f nv chs h1 cs) as [h'|].
    + destruct IH as (I1 & I2 & I3 & I4 & I5 & I6 & I7).
      cbn [option_list]. fold (view h cs).
      assert (Ha' : state_at h' a = h_with_cl s b) by (rewrite I6 by exact Hna; exact Q1).
      assert (Hb : ~ In b (map (fun it => h_cl (state_at h1 (snd it))) cs)).
      { rewrite Cls. destruct Q3 as [[-> _]|[-> _]]; [exact Hncl|]. intros H. apply in_map_iff in H. destruct H as ([j c] & E & H). cbn [snd] in E.
        destruct (V j c (or_intror H)) as (_ & W & _). rewrite E in W. lia. }
      assert (Hlb : list_at h' b = returned f l nv chs).
      { rewrite I7; [exact Q4|lia|now right]. }
      assert (Hres : map (fun e => (list_at h' (fst e), snd e)) (h_res s) = map (fun e => (list_at h (fst e), snd e)) (h_res s)).
      { apply map_ext_in. intros [x p] Hx. cbn [fst snd]. f_equal. pose proof (Vr x p Hx) as Hlt.
        assert (Hcond : (forall l, fst (f l nv chs) = l) \/ x <> h_cl s /\ ~ In x (map (fun it => h_cl (state_at h (snd it))) cs)).
        { destruct Hf as [Hal|Hf]; [right|now left]. split.
          - intros ->. apply (N Hal i a (or_introl eq_refl)). exists i, a, p. split; [now left|exact Hx].
          - intros H. apply in_map_iff in H. destruct H as ([j c] & E & H). cbn [snd] in E. apply (N Hal j c (or_intror H)).
            exists i, a, p. split; [now left|]. rewrite E. exact Hx. }
        rewrite I7; [apply Keep; [exact Hlt|]|lia|].
        - destruct Hcond as [H|[H _]]; auto.
        - rewrite Cls. destruct Hcond as [H|[_ H]]; auto. }
      split; [|split; [|split; [lia|split; [lia|split; [|split]]]]].
      * match type of I1 with ?x = _ => change (match x with Some r' => Some ((i, with_classical (deref h s) (returned f l nv chs)) :: r') | None => None end
              = Some (view h' ((i, a) :: cs))) end.
        rewrite I1. cbn [view map fst snd]. do 3 f_equal. rewrite Ha'. unfold deref, with_classical.
        cbn [h_with_cl h_init h_cum h_comps h_cl h_res h_aux s_init s_cum s_comps s_results s_aux]. rewrite Hlb, Hres. reflexivity.
      * destruct I2 as (V2 & A2 & B2 & N2). split; [|split; [exact A|split]].
        -- intros j c [[= <- <-]|H]; [|apply (V2 j c H)]. rewrite Ha'. cbn [h_with_cl h_cl h_res]. split; [lia|]. split; [lia|].
           intros x p Hx. specialize (Vr x p Hx). lia.
        -- cbn [map snd]. constructor; [|exact B2]. rewrite Ha'. cbn [h_with_cl h_cl]. intros H. apply in_map_iff in H.
           destruct H as ([j c] & E & H). cbn [snd] in E. destruct (I5 j c H) as [[E'|E'] _].
           ++ apply Hb. apply in_map_iff. exists (j, c). split; [cbn [snd]; congruence|exact H].
           ++ rewrite E in E'. lia.
        -- intros Hal j c H (j' & c' & p & K & L).
           assert (HR : h_res (state_at h' c') = h_res (state_at h c')).
           { destruct K as [[= <- <-]|K]; [rewrite Ha'; reflexivity|]. destruct (I5 j' c' K) as [_ ->]. now rewrite (St j' c' K). }
           rewrite HR in L. destruct (V j' c' K) as (_ & _ & W). pose proof (W _ _ L) as Hlt.
           assert (HC : h_cl (state_at h' c) = h_cl (state_at h c)).
           { destruct H as [[= <- <-]|H].
             - rewrite Ha' in *. cbn [h_with_cl h_cl] in *. destruct Q3 as [[-> _]|[-> _]]; [reflexivity|lia].
             - destruct (I5 j c H) as [[E|E] _]; [now rewrite E, (St j c H)|lia]. }
           rewrite HC in L. apply (N Hal j c H). exists j', c', p. auto.
      * intros j c [[= <- <-]|H].
        -- rewrite Ha'. cbn [h_with_cl h_cl h_res]. split; [|reflexivity]. destruct Q3 as [[-> _]|[-> _]]; [now left|right; lia].
        -- destruct (I5 j c H) as [E1' E2']. rewrite (St j c H) in E1', E2'. split; [destruct E1'; [now left|right; lia]|exact E2'].
      * intros c Hc. cbn [map snd In] in Hc. rewrite I6 by tauto. apply P3. intros ->. tauto.
      * intros x Hx Hcond. rewrite I7; [apply Keep; auto|lia|].
        -- destruct Hcond as [H|H]; [now left|right]. intros ->. apply H. now left.
        -- rewrite Cls. destruct Hcond as [H|H]; [now left|right]. intros K. apply H. now right.
    + cbn [option_list]. fold (view h cs).
      match type of IH with ?x = _ => change (match x with Some r' => Some ((i, with_classical (deref h s) (returned f l nv chs)) :: r') | None => None end
              = None) end.
      now rewrite IH.
Qed.

Lemma made_separate_copy h cs h' cs' : valid_coll h cs -> Made no_more h cs h' cs' -> separate false h' cs'.
Proof.
  intros V M. assert (V' : valid_coll h' cs') by (apply (valid_made no_more h cs); auto; exact no_more_own).
  split; [exact V'|]. destruct M as [U B D F]. split; [exact D|]. split; [exact F|].
  intros _ i a H (j & b & p & K & L). destruct (B i a H) as (_ & Y & _). destruct (B j b K) as (_ & _ & i0 & a0 & more & H0 & Hr & Hm).
  rewrite Hr in L. apply in_app_or in L. destruct L as [L|L]; [|rewrite Hm in L; destruct L].
  destruct (V i0 a0 H0) as (_ & _ & W). apply W in L. lia.
Qed.
Lemma made_separate_measure h cs h' cs' : valid_coll h cs -> Made own_list h cs h' cs' -> separate true h' cs'.
Proof.
  intros V M. assert (V' : valid_coll h' cs') by (apply (valid_made own_list h cs); auto; exact own_list_own).
  split; [exact V'|]. destruct M as [U B D F]. split; [exact D|]. split; [exact F|]. discriminate.
Qed.

Lemma no_write_suffix c fresh : forall ks rest, (forall k, In k ks -> is_optical (node_at (erase_circuit c) k) = true) -> ks <> [] ->
  no_write_after_measure fresh c (ks ++ rest) -> no_write_after_measure true c rest.
Proof.
  intros ks. revert fresh. induction ks as [|k ks IH]; intros fresh rest Ho Hne H; [now destruct Hne|].
  cbn [app no_write_after_measure] in H. pose proof (Ho k (or_introl eq_refl)) as Hk. rewrite node_at_erase in Hk.
  destruct (hnode_at c k) as [f nv chs|nd]; [discriminate|]. cbn [erase] in Hk. destruct nd; try discriminate.
  destruct ks as [|k2 ks]; [exact H|]. apply (IH true); auto; [intros j Hj; apply Ho; now right|discriminate].
Qed.

Lemma heval_simulates X rnd c fuel : forall inds h cs seed h' cs' seed' fresh,
  let pc := erase_circuit c in
  separate (negb fresh) h cs -> NoDup (map fst cs) -> no_write_after_measure fresh c inds ->
  heval fuel rnd c inds h cs seed = Ok (h', cs', seed') ->
  eval fuel X rnd pc inds (coll_of pc (view h cs)) seed = Ok (coll_of pc (view h' cs'), seed').
Proof.
  induction fuel as [|fuel IH]; intros inds h cs seed h' cs' seed' fresh pc S ND Hw E; [discriminate|].
  cbn [heval eval] in *. destruct inds as [|k r]; [injection E as <- <- <-; reflexivity|].
  assert (Hlen : length (c_nodes pc) = length (hc_nodes c)).
  { unfold pc, erase_circuit. destruct (hc_base c). cbn. apply map_length. }
  rewrite Hlen. destruct (negb (forallb (fun i => i <? length (hc_nodes c)) (k :: r))); [discriminate|].
  assert (V : valid_coll h cs) by apply S.
  assert (NDv : NoDup (map fst (view h cs))) by (rewrite view_keys; exact ND).
  destruct (is_optical (node_at pc k)) eqn:Eo; fold pc in E; rewrite Eo in E.
  - cbv zeta in E. unfold hrun_optical in E. fold pc in E.
    destruct (node_at pc k) eqn:En; try discriminate.
    cbv zeta. unfold run_optical. cbn [co_items coll_of].
    set (ks := optical_prefix pc (k :: r)) in *. set (rest := if list_max (k :: r) <=? list_max ks then [] else skipn (length ks) (k :: r)) in *.
    destruct (apply_optical _ _ _ _ _ _ _) as [o|] eqn:Ea; [|discriminate]. cbn [option_map] in *.
    apply apply_optical_aligned in Ea. destruct Ea as [Al Ky].
    destruct (hcopy_with_view h cs o V Al) as [Hv HM].
    destruct (hcopy_with h cs o) as [h1 cs1]. cbn [fst snd] in *. rewrite <- Hv.
    apply IH with (fresh := true) in E; auto.
    + cbn. eapply made_separate_copy; eauto.
    + rewrite <- (view_keys h1). rewrite Hv. unfold ident in *. rewrite Ky. exact NDv.
    + unfold rest. destruct (_ <=? _); [exact I|].
      assert (Hsplit : exists sfx, k :: r = ks ++ sfx) by apply optical_prefix_app.
      destruct Hsplit as [sfx Hs]. rewrite Hs, skipn_prefix. apply (no_write_suffix c fresh ks).
      * intros j Hj. eapply optical_prefix_in; eauto.
      * unfold ks. cbn [optical_prefix]. rewrite En. discriminate.
      * rewrite <- Hs. exact Hw.
  - cbv zeta in E. set (rest := if list_max (k :: r) <=? k then [] else r) in *.
    destruct (hrun_node rnd c k h cs seed) as [[[h1 cs1] sd1]|] eqn:E1; [|discriminate].
    unfold hrun_node in E1. cbn [no_write_after_measure] in Hw.
    assert (En : node_at pc k = erase (hnode_at c k)) by apply node_at_erase.
    assert (Hrest : forall fr, no_write_after_measure fr c r -> no_write_after_measure fr c rest).
    { intros fr H. unfold rest. destruct (_ <=? _); [exact I|exact H]. }
    destruct (hnode_at c k) as [f nv chs|nd] eqn:Eh; cbn [erase] in En.
    + (* classical *)
      rewrite En. fold rest. unfold run_node. rewrite En. cbn [co_items coll_of].
      destruct Hw as [Hw1 Hw2].
      assert (Hf : negb fresh = false \/ forall l, fst (f l nv chs) = l).
      { destruct Hw1 as [->|Hw1]; [now left|]. right. cbn in Hw1. exact Hw1. }
      pose proof (hclassical_view (negb fresh) pc f nv chs cs h S Hf) as Hc. fold pc in E1.
      destruct (hclassical (c_ncl pc) f nv chs h cs) as [h2|] eqn:E2; [|discriminate]. cbn [option_map] in E1. injection E1 as -> <- <-.
      destruct Hc as (C1 & C2 & _). rewrite C1. cbn [option_map]. change (with_items (coll_of pc (view h cs)) (view h1 cs)) with (coll_of pc (view h1 cs)).
      apply IH with (fresh := fresh) in E; auto.
    + destruct nd; try discriminate; rewrite En; fold rest; unfold run_node; rewrite En; cbn [co_items coll_of]; fold pc in E1.
      * (* custom Fock matrix *)
        destruct (custom_items pc rnd M (view h cs) seed) as [[o s]|] eqn:E2; [|discriminate]. cbn [option_map fst snd] in *. injection E1 as E1 ->.
        apply custom_aligned in E2. destruct E2 as [A B]. destruct (hcopy_with_view h cs o V A) as [Hv HM]. rewrite E1 in Hv, HM. cbn [fst snd] in *.
        rewrite <- Hv. apply IH with (fresh := true) in E; auto.
        -- cbn. eapply made_separate_copy; eauto.
        -- rewrite <- (view_keys h1). rewrite Hv. exact B.
      * (* measurement *)
        destruct (all_have AuxPhotonResolution (view h cs)) eqn:A1; [discriminate|].
        destruct (all_have AuxPopescuRohrlich (view h cs)) eqn:A2; [discriminate|]. cbn [orb] in E1.
        pose proof (hmeasure_spec pc k opt cl h cs V) as Hm.
        destruct (hmeasure pc k opt cl h cs) as [[h2 cs2]|]; [|discriminate]. cbn [option_map fst snd] in *. injection E1 as -> -> <-.
        destruct Hm as [Hm1 Hm2]. rewrite Hm2. cbn [option_map]. apply IH with (fresh := false) in E; auto.
        -- cbn. eapply made_separate_measure; eauto.
        -- rewrite <- (view_keys h1). apply measure_items_inv in Hm2; [|exact NDv]. destruct Hm2 as (rs & _ & ->).
           destruct (measurement_number_ok (c_nodes pc) k). apply measured_nodup; auto.
      * (* controlled *)
        destruct (controlled_items pc theta phi vars tl (view h cs)) as [o|] eqn:E2; [|discriminate]. cbn [option_map fst snd] in *. injection E1 as E1 ->.
        apply controlled_aligned in E2; [|exact NDv]. destruct E2 as [A B]. destruct (hcopy_with_view h cs o V A) as [Hv HM]. rewrite E1 in Hv, HM. cbn [fst snd] in *.
        rewrite <- Hv. apply IH with (fresh := true) in E; auto.
        -- cbn. eapply made_separate_copy; eauto.
        -- rewrite <- (view_keys h1). rewrite Hv. unfold ident in *. rewrite B. exact NDv.
Qed.
