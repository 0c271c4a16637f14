(** C24, C25, C26, C31, C32 on the level of Python objects (who shares which list). *)
From Coq Require Import Reals List Arith Lia Lra Bool Permutation Sorted.
From Coquelicot Require Import Complex.
From Verif Require Import Prelude NamesModel NamesSpec FockModel OpticalModel StateModel StateSpec CollectionModel EvalModel EvalSpec
  StateProofs ApplyProofs EvalProofs MeasureSpec MeasureProofs WfProofs PropMeasure PropEval HeapModel HeapSpec HeapProofs.
Import ListNotations.

(** ** Agreement of the two models *)

(** What a user reads from the objects after evaluate_circuit is what the model without objects
    computes, for a collection of separate states (isolated), as long as no classical function
    writes into the list of values directly after a measurement. This carries the theorems of the
    other files (C17-C24, C27) over to the program with its shared lists. *)
Theorem C24_objects_agree : forall X rnd c inds h cs h' cs' seed',
  valid_coll h cs -> isolated h cs -> NoDup (map fst cs) -> no_write_after_measure true c inds ->
  hevaluate rnd c inds h cs = Ok (h', cs', seed') ->
  evaluate_from X rnd (erase_circuit c) inds (coll_of (erase_circuit c) (view h cs)) 0
  = Ok (coll_of (erase_circuit c) (view h' cs'), seed').
Proof.
  intros X rnd c inds h cs h' cs' seed' V (I1 & I2 & I3) ND Hw E. unfold hevaluate in E.
  apply (heval_simulates X) with (fresh := true) in E; auto; [|split; [exact V|split; [exact I1|split; [exact I2|auto]]]].
  unfold evaluate_from. rewrite eval_more by (rewrite E; discriminate). exact E.
Qed.

(** ** C25 *)

(** If the first node evaluated is not a classical node, evaluate_circuit changes no State object
    and no list that existed before the call: neither the collection passed in nor any other
    collection of the caller. *)
Theorem C25_input_unchanged_partial : forall rnd c inds h cs h' cs' seed',
  valid_coll h cs -> match inds with k :: _ => is_classical (hnode_at c k) = false | [] => True end ->
  hevaluate rnd c inds h cs = Ok (h', cs', seed') ->
  untouched h h' /\ (forall any, valid_coll h any -> view h' any = view h any).
Proof.
  intros rnd c inds h cs h' cs' seed' V Hfirst E.
  assert (U : untouched h h').
  { set (I := fun (l : list nat) (g : heap) (ds : hcoll) =>
      valid_coll g ds /\ untouched h g /\
      ((g = h /\ ds = cs /\ match l with k :: _ => is_classical (hnode_at c k) = false | [] => True end) \/
       (forall i a, In (i, a) ds -> length (hp_states h) <= a /\ length (hp_lists h) <= h_cl (state_at g a)))).
    assert (F : I [] h' cs').
    { unfold hevaluate in E. eapply (heval_ind rnd c I); [| | | | |exact E].
      - intros l g ds (A & B & [(-> & -> & _)|D]); (split; [exact A|split; [exact B|]]); [left; auto|now right].
      - intros l g ds (A & _). exact A.
      - intros k r g ds g' ds' rest (A & B & D) Hk M. unfold I.
        split; [apply (valid_made either g ds); auto; exact either_own|]. split; [eapply untouched_trans; [exact B|apply M]|]. right.
        intros i a H. destruct (made_born _ _ _ _ _ M i a H) as (X & Y & _). pose proof (untouched_len h g B). lia.
      - intros k r g ds g' f nv chs (A & B & D) Hk Hcl.
        destruct D as [(_ & _ & D)|D]; [rewrite Hk in D; discriminate|].
        set (J := fun g : heap => valid_coll g ds /\ untouched h g /\ (forall i a, In (i, a) ds -> length (hp_states h) <= a /\ length (hp_lists h) <= h_cl (state_at g a))).
        assert (HJ : J g').
        { eapply (hclassical_ind J); [| |exact Hcl]; [|split; [exact A|split; [exact B|exact D]]].
          intros g1 i a g2 Hin (A1 & B1 & D1) E1. destruct (A1 i a Hin) as (W1 & W2 & W3).
          destruct (D1 i a Hin) as [Z1 Z2].
          pose proof (untouched_len h g1 B1) as [L1 L2].
          assert (U2 : untouched h g2).
          { unfold hclassical_state in E1. destruct (_ =? _); [|discriminate]. destruct (snd (f _ nv chs)) as [x|]; injection E1 as <-.
            - apply untouched_set_state; [|exact Z1]. eapply untouched_trans; [apply untouched_set_list; [exact B1|exact Z2]|].
              eexists [x], []. split; [reflexivity|]. cbn. now rewrite app_nil_r.
            - apply untouched_set_list; auto. }
          apply hclassical_state_spec in E1; auto. cbv zeta in E1. destruct E1 as (_ & _ & _ & P3 & P4 & P5 & b & Q1 & Q2 & Q3 & _).
          assert (Hst : forall c, h_cl (state_at g2 c) = h_cl (state_at g1 c) \/ c = a /\ h_cl (state_at g2 c) = length (hp_lists g1) /\ h_cl (state_at g2 c) < length (hp_lists g2)).
          { intros c0. destruct (Nat.eq_dec c0 a) as [->|Hne]; [|left; now rewrite P3]. rewrite Q1. cbn [h_with_cl h_cl].
            destruct Q3 as [[-> _]|[-> _]]; [now left|right; auto]. }
          assert (Hres : forall c, h_res (state_at g2 c) = h_res (state_at g1 c)).
          { intros c0. destruct (Nat.eq_dec c0 a) as [->|Hne]; [now rewrite Q1|now rewrite P3]. }
          split; [|split; [exact U2|]].
          - intros j d Hd. destruct (A1 j d Hd) as (Y1 & Y2 & Y3). rewrite Hres. split; [lia|]. split.
            + destruct (Hst d) as [->|(_ & _ & H)]; lia.
            + intros l p Hl. specialize (Y3 l p Hl). lia.
          - intros j d Hd. destruct (D1 j d Hd) as [Y1 Y2]. split; [exact Y1|]. destruct (Hst d) as [->|(_ & -> & _)]; lia. }
        destruct HJ as (J1 & J2 & J3). split; [exact J1|]. split; [exact J2|]. now right.
      - split; [exact V|]. split; [apply untouched_refl|]. left. auto. }
    apply F. }
  split; [exact U|]. intros any Va. now apply view_untouched.
Qed.

(** A classical node at the start of the list works on the caller's own State objects: what is
    returned is the caller's collection, and it shows the new values. *)
Theorem C25_classical_first : forall rnd c k f nv chs h cs h' cs' seed',
  valid_coll h cs -> isolated h cs ->
  hnode_at c k = HClassical f nv chs -> hevaluate rnd c [k] h cs = Ok (h', cs', seed') ->
  cs' = cs /\
  view h' cs = map (fun it => (fst it, with_classical (snd it) (returned f (s_classical (snd it)) nv chs))) (view h cs).
Proof.
  intros rnd c k f nv chs h cs h' cs' seed' V (I1 & I2 & I3) Hk E. unfold hevaluate in E. cbn [length] in E.
  cbn [heval] in E. destruct (negb _); [discriminate|].
  rewrite node_at_erase, Hk in E. cbn [erase is_optical] in E. unfold hrun_node in E. rewrite Hk in E.
  pose proof (hclassical_view false (erase_circuit c) f nv chs cs h) as Hv.
  destruct (hclassical (c_ncl (erase_circuit c)) f nv chs h cs) as [h1|]; [|discriminate]. cbn [option_map] in E.
  destruct Hv as (Hv & _); [split; [exact V|split; [exact I1|split; auto]]|now left|].
  assert (E' : (h1, cs, 0) = (h', cs', seed')) by (destruct (_ <=? _); cbn [heval] in E; congruence).
  injection E' as <- <- <-. split; [reflexivity|]. apply classical_items_inv in Hv. apply Hv.
Qed.

Definition heap_1 : heap := Heap [[0%R; 4%R]] [HState [121] (/2) [([0;1], (RtoC 1, 1%R))] 0 [] []].
Definition coll_1 : hcoll := [([98], 0)].
Definition circuit_1 : hcircuit :=
  HCircuit measure_circuit [HClassical set_in_place [7%R] [1]; HOther (NMeasure [0] [1]); HClassical set_in_place [7%R] [1]].

Lemma heap_1_valid : valid_coll heap_1 coll_1.
Proof. intros i a [[= <- <-]|[]]. cbn. split; [lia|]. split; [lia|]. intros l p []. Qed.
Lemma heap_1_isolated : isolated heap_1 coll_1.
Proof.
  split; [repeat constructor; intros []|]. split; [repeat constructor; intros []|].
  intros i a [[= <- <-]|[]] (j & b & p & [[= <- <-]|[]] & []).
Qed.

(** The collection passed to evaluate_circuit is changed: a circuit with one
    set_classical_channels node. *)
Theorem C25_refuted : exists rnd c h cs h' cs' seed',
  valid_coll h cs /\ isolated h cs /\ hevaluate rnd c [0] h cs = Ok (h', cs', seed') /\ view h' cs <> view h cs.
Proof.
  exists (fun _ => 0), circuit_1, heap_1, coll_1.
  do 3 eexists. split; [apply heap_1_valid|]. split; [apply heap_1_isolated|]. split; [reflexivity|].
  cbn. intros E. injection E as E. lra.
Qed.

(** ** C26 *)

(** Whatever nodes run later, the histories of all collections that exist before the call keep
    their values - provided the classical nodes at the head of the list do not write into their
    argument, or no list of classical values of the collection is recorded in those histories. *)
Theorem C26_recorded_values_partial : forall rnd c inds h cs h' cs' seed' any,
  valid_coll h cs -> valid_coll h any ->
  not_recorded h any cs \/ (forall k, In k (leading_classical c inds) -> leaves_argument (hnode_at c k)) ->
  hevaluate rnd c inds h cs = Ok (h', cs', seed') ->
  histories h' any = histories h any.
Proof.
  intros rnd c inds h cs h' cs' seed' any V Va Hsafe E.
  set (P := recorded h any).
  assert (HP : forall l, P l -> l < length (hp_lists h)).
  { intros l (i & a & p & K & L). destruct (Va i a K) as (_ & _ & W). eauto. }
  set (I := fun (l : list nat) (g : heap) (ds : hcoll) =>
    valid_coll g ds /\ length (hp_lists h) <= length (hp_lists g) /\ length (hp_states h) <= length (hp_states g) /\
    (forall x, P x -> list_at g x = list_at h x) /\
    (forall a, a < length (hp_states h) -> h_res (state_at g a) = h_res (state_at h a)) /\
    ((forall i a, In (i, a) ds -> ~ P (h_cl (state_at g a))) \/
     (forall k, In k (leading_classical c l) -> leaves_argument (hnode_at c k)))).
  assert (F : I [] h' cs').
  { unfold hevaluate in E. eapply (heval_ind rnd c I); [| | | | |exact E].
    - intros l g ds (A & B & B2 & D1 & D2 & _). do 5 (split; [assumption|]). right. intros k [].
    - intros l g ds (A & _). exact A.
    - intros k r g ds g' ds' rest (A & B & B2 & D1 & D2 & _) Hk M. pose proof (made_untouched _ _ _ _ _ M) as U. pose proof (untouched_len g g' U) as [L1 L2].
      split; [apply (valid_made either g ds); auto; exact either_own|]. split; [lia|]. split; [lia|]. split; [|split; [|left]].
      + intros x Hx. rewrite (untouched_list g g'); auto. specialize (HP x Hx). lia.
      + intros a Ha. rewrite (untouched_state g g'); auto. lia.
      + intros i a H Hp. destruct (made_born _ _ _ _ _ M i a H) as (_ & Y & _). apply HP in Hp. lia.
    - intros k r g ds g' f nv chs HI Hk Hcl. unfold I.
      assert (Hmode : (forall i a, In (i, a) ds -> ~ P (h_cl (state_at g a))) \/
                      ((forall l, fst (f l nv chs) = l) /\ forall k, In k (leading_classical c r) -> leaves_argument (hnode_at c k))).
      { destruct HI as (_ & _ & _ & _ & _ & [H|H]); [now left|right]. cbn [leading_classical] in H. rewrite Hk in H. cbn [is_classical] in H. split.
        - specialize (H k (or_introl eq_refl)). rewrite Hk in H. exact H.
        - intros j Hj. apply H. now right. }
      set (J := fun g : heap => valid_coll g ds /\ length (hp_lists h) <= length (hp_lists g) /\ length (hp_states h) <= length (hp_states g) /\
        (forall x, P x -> list_at g x = list_at h x) /\
        (forall a, a < length (hp_states h) -> h_res (state_at g a) = h_res (state_at h a)) /\
        ((forall i a, In (i, a) ds -> ~ P (h_cl (state_at g a))) \/ (forall l, fst (f l nv chs) = l))).
      assert (HJ : J g').
      { eapply (hclassical_ind J); [| |exact Hcl].
        - intros g1 i a g2 Hin (A1 & B1 & B2 & D1 & D2 & D3) E1. destruct (A1 i a Hin) as (W1 & W2 & W3).
          apply hclassical_state_spec in E1; auto. cbv zeta in E1. destruct E1 as (_ & P1 & P2 & P3 & P4 & P5 & b & Q1 & Q2 & Q3 & _).
          assert (Hst : forall c, h_cl (state_at g2 c) = h_cl (state_at g1 c) \/ h_cl (state_at g2 c) = length (hp_lists g1) /\ h_cl (state_at g2 c) < length (hp_lists g2)).
          { intros c0. destruct (Nat.eq_dec c0 a) as [->|Hne]; [|left; now rewrite P3]. rewrite Q1. cbn [h_with_cl h_cl].
            destruct Q3 as [[-> _]|[-> _]]; [now left|right; auto]. }
          assert (Hres : forall c, h_res (state_at g2 c) = h_res (state_at g1 c)).
          { intros c0. destruct (Nat.eq_dec c0 a) as [->|Hne]; [now rewrite Q1|now rewrite P3]. }
          split; [|split; [lia|split; [lia|split; [|split]]]].
          + intros j d Hd. destruct (A1 j d Hd) as (Y1 & Y2 & Y3). rewrite Hres. split; [lia|]. split.
            * destruct (Hst d) as [->|(_ & H)]; lia.
            * intros l p Hl. specialize (Y3 l p Hl). lia.
          + intros x Hx. rewrite <- D1 by exact Hx. pose proof (HP x Hx) as Hlt.
            destruct (Nat.eq_dec x (h_cl (state_at g1 a))) as [->|Hne]; [|apply P1; [exact Hne|lia]].
            destruct D3 as [D3|D3]; [destruct (D3 i a Hin Hx)|]. rewrite P2. apply D3.
          + intros d Hd. rewrite Hres. auto.
          + destruct D3 as [D3|D3]; [left|now right]. intros j d Hd Hp. destruct (Hst d) as [Ed|(Ed & _)]; rewrite Ed in Hp.
            * exact (D3 j d Hd Hp).
            * apply HP in Hp. lia.
        - destruct HI as (A & B & B2 & D1 & D2 & _). do 5 (split; [assumption|]). destruct Hmode as [H|[H _]]; auto. }
      destruct HJ as (A & B & B2 & D1 & D2 & D3). do 5 (split; [assumption|]).
      destruct Hmode as [H|[_ H]]; [|now right]. destruct D3 as [D3|D3]; [now left|].
      (* not recorded before the node: not recorded after it *)
      left. clear - H HP Hcl HI D3. 
      set (J := fun g1 : heap => valid_coll g1 ds /\ length (hp_lists h) <= length (hp_lists g1) /\ forall i a, In (i, a) ds -> ~ P (h_cl (state_at g1 a))).
      assert (HJ : J g').
      { eapply (hclassical_ind J); [| |exact Hcl].
        - intros g1 i a g2 Hin (A1 & B1 & N1) E1. destruct (A1 i a Hin) as (W1 & W2 & W3).
          apply hclassical_state_spec in E1; auto. cbv zeta in E1. destruct E1 as (_ & P1 & P2 & P3 & P4 & P5 & b & Q1 & Q2 & Q3 & _).
          assert (Hst : forall c, h_cl (state_at g2 c) = h_cl (state_at g1 c) \/ h_cl (state_at g2 c) = length (hp_lists g1) /\ h_cl (state_at g2 c) < length (hp_lists g2)).
          { intros c0. destruct (Nat.eq_dec c0 a) as [->|Hne]; [|left; now rewrite P3]. rewrite Q1. cbn [h_with_cl h_cl].
            destruct Q3 as [[-> _]|[-> _]]; [now left|right; auto]. }
          assert (Hres : forall c, h_res (state_at g2 c) = h_res (state_at g1 c)).
          { intros c0. destruct (Nat.eq_dec c0 a) as [->|Hne]; [now rewrite Q1|now rewrite P3]. }
          split; [|split; [lia|]].
          + intros j d Hd. destruct (A1 j d Hd) as (Y1 & Y2 & Y3). rewrite Hres. split; [lia|]. split.
            * destruct (Hst d) as [->|(_ & K)]; lia.
            * intros l p Hl. specialize (Y3 l p Hl). lia.
          + intros j d Hd Hp. destruct (Hst d) as [Ed|(Ed & _)]; rewrite Ed in Hp; [exact (N1 j d Hd Hp)|apply HP in Hp; lia].
        - destruct HI as (A & B & _). split; [exact A|]. split; [exact B|exact H]. }
      apply HJ.
    - split; [exact V|]. split; [lia|]. split; [lia|]. split; [auto|]. split; [auto|].
      destruct Hsafe as [H|H]; [left|now right]. intros i a Hin. apply (H i a Hin). }
  destruct F as (_ & _ & _ & D1 & D2 & _). unfold histories, view. rewrite !map_map. apply map_ext_in. intros [i a] Hin. cbn [fst snd].
  unfold deref. cbn [s_results]. destruct (Va i a Hin) as (W1 & _ & W3). rewrite (D2 a W1).
  apply map_ext_in. intros [x p] Hx. cbn [fst snd]. f_equal. apply D1. exists i, a, p. auto.
Qed.

(** A measurement records the State's own list of classical values: after a measurement followed
    by a classical node that writes into that list (such as set_classical_channels), the last
    record of EVERY state shows the values written after the measurement. *)
Theorem C26_record_is_overwritten : forall rnd c k1 k2 opt cl nv chs h cs h' cs' seed',
  valid_coll h cs -> hnode_at c k1 = HOther (NMeasure opt cl) -> hnode_at c k2 = HClassical set_in_place nv chs -> k1 < k2 ->
  hevaluate rnd c [k1; k2] h cs = Ok (h', cs', seed') ->
  forall i st, In (i, st) (view h' cs') -> exists earlier p, s_results st = earlier ++ [(s_classical st, p)].
Proof.
  intros rnd c k1 k2 opt cl nv chs h cs h' cs' seed' V Hk1 Hk2 Hlt E. unfold hevaluate in E. cbn [length heval] in E.
  destruct (negb _); [discriminate|]. rewrite node_at_erase, Hk1 in E. cbn [erase is_optical] in E.
  unfold hrun_node at 1 in E. rewrite Hk1 in E. destruct (_ || _); [discriminate|].
  pose proof (hmeasure_spec (erase_circuit c) k1 opt cl h cs V) as Hm.
  destruct (hmeasure (erase_circuit c) k1 opt cl h cs) as [[h1 cs1]|]; [|discriminate]. cbn [option_map fst snd] in *.
  destruct Hm as [M _].
  assert (Hmax : list_max [k1; k2] <=? k1 = false) by (apply Nat.leb_gt; cbn; lia). rewrite Hmax in E.
  cbn [heval] in E. destruct (negb _) in E; [discriminate|]. rewrite node_at_erase, Hk2 in E. cbn [erase is_optical] in E. unfold hrun_node in E. rewrite Hk2 in E.
  destruct (hclassical _ set_in_place nv chs h1 cs1) as [h2|] eqn:E2; [|discriminate]. cbn [option_map] in E.
  assert (E' : (h2, cs1, 0) = (h', cs', seed')) by (destruct (list_max [k2] <=? k2); cbn [heval] in E; congruence).
  injection E' as -> -> _. clear E.
  set (J := fun g : heap => valid_coll g cs' /\ forall i a, In (i, a) cs' -> exists earlier p, h_res (state_at g a) = earlier ++ [(h_cl (state_at g a), p)]).
  assert (HJ : J h').
  { eapply (hclassical_ind J); [| |exact E2].
    - intros g1 i a g2 Hin (A1 & N1) E1. destruct (A1 i a Hin) as (W1 & W2 & W3).
      apply hclassical_state_spec in E1; auto. cbv zeta in E1. destruct E1 as (Hret & P1 & P2 & P3 & P4 & P5 & b & Q1 & Q2 & Q3 & _).
      assert (Hst : forall d, state_at g2 d = state_at g1 d).
      { intros d. destruct (Nat.eq_dec d a) as [->|Hne]; [|now apply P3]. rewrite Q1. destruct Q3 as [[-> _]|[_ Q3]]; [apply h_with_cl_id|now destruct Q3]. }
      split.
      + intros j d Hd. rewrite Hst. destruct (A1 j d Hd) as (Y1 & Y2 & Y3). split; [lia|]. split; [lia|]. intros l p Hl. specialize (Y3 l p Hl). lia.
      + intros j d Hd. rewrite Hst. exact (N1 j d Hd).
    - unfold J. split; [apply (valid_made own_list h cs); auto; exact own_list_own|].
      intros i a Hin. destruct (made_born _ _ _ _ _ M i a Hin) as (_ & _ & i0 & a0 & more & _ & Hr & p & ->). eauto. }
  destruct HJ as [_ HJ]. intros i st Hin. unfold view in Hin. apply in_map_iff in Hin. destruct Hin as ([j a] & [= <- <-] & Hin).
  destruct (HJ j a Hin) as (earlier & p & Hr). unfold deref. cbn [s_results s_classical]. rewrite Hr, map_app. cbn [map fst snd]. eauto.
Qed.

(** *** A measurement on objects, computed *)
Definition heap_2 : heap :=
  Heap [[0%R; 4%R]; [0%R; 0%R]]
       [HState [121] (/2) [([0;1], (RtoC 1, 1%R))] 0 [] [];
        HState [121] (/2) [([0;1], (RtoC 1, 1%R))] 1 [(1, 1%R)] []].
Definition coll_2 : hcoll := [([98;45;77;49;97], 1)].

Lemma photon_1_measured :
  perform_measurement (Dims 2 2 true) 2 (/ 10000000000) [0] [1] photon_1
  = Some [State [121] (/2) [([0;1], (RtoC 1, 1%R))] [0%R; 0%R] [([0%R; 0%R], 1%R)] []].
Proof.
  unfold perform_measurement. change (map (fun c => (values_of_name (Dims 2 2 true) (fst c), fst (snd c))) (s_comps photon_1)) with [([0;1], RtoC 1)].
  change (group_by leqb (fun m : values * C => outcome_of [0] (fst m)) [([0; 1], RtoC 1)]) with [([0], [([0;1], RtoC 1)])].
  cbn [map fst snd]. unfold collapsed_state.
  cbv zeta. unfold Rsum. cbn [fold_right snd].
  assert (Ht : (Cnorm2 (RtoC 1) + 0)%R = 1%R) by (rewrite Cnorm2_RtoC; lra).
  rewrite !Ht. destruct (Req_EM_T 1 0) as [H|_]; [lra|].
  assert (Hc : copy_state (/ 10000000000) 2 photon_1 = Some photon_1).
  { unfold copy_state, make_state, check_state, photon_1, Rltb. cbn [s_cum s_comps s_classical forallb snd length Nat.eqb].
    repeat (destruct (Rlt_dec _ _); [exfalso; lra|]). reflexivity. }
  rewrite Hc. change (s_cum photon_1) with (/2)%R. unfold set_cumulative.
  destruct (Rle_dec 0 (/2 * 1)) as [_|H]; [|exfalso; lra]. destruct (Rle_dec (/2 * 1) 1) as [_|H]; [|exfalso; lra].
  cbn [option_list map with_cum s_init s_cum s_comps s_classical s_results s_aux photon_1 app fst snd].
  change (name_string (Dims 2 2 true) [0;1]) with [0;1].
  cbn [write_classical combine fold_left fst snd set_nth dict_of dset INR].
  rewrite sqrt_1. replace (RtoC 1 / RtoC 1)%C with (RtoC 1) by (unfold Cdiv; rewrite <- RtoC_inv by lra; rewrite <- RtoC_mult; f_equal; field).
  rewrite Cnorm2_RtoC, !Rmult_1_r. reflexivity.
Qed.

Lemma circuit_1_measure : hevaluate (fun _ => 0) circuit_1 [1] heap_1 coll_1 = Ok (heap_2, coll_2, 0).
Proof.
  unfold hevaluate. cbn [length heval]. change (negb (forallb (fun i => i <? length (hc_nodes circuit_1)) [1])) with false. cbv iota.
  change (is_optical (node_at (erase_circuit circuit_1) 1)) with false. cbv iota.
  assert (E : hrun_node (fun _ => 0) circuit_1 1 heap_1 coll_1 0 = Some (heap_2, coll_2, 0)).
  { unfold hrun_node. change (hnode_at circuit_1 1) with (HOther (NMeasure [0] [1])). cbv iota beta zeta.
    change (all_have AuxPhotonResolution (view heap_1 coll_1) || all_have AuxPopescuRohrlich (view heap_1 coll_1)) with false. cbv iota.
    unfold hmeasure, coll_1. cbn [fold_left fst snd]. cbv zeta.
    change (deref heap_1 (state_at heap_1 0)) with photon_1.
    change (c_D (erase_circuit circuit_1)) with (Dims 2 2 true). change (c_ncl (erase_circuit circuit_1)) with 2.
    change (c_eps (erase_circuit circuit_1)) with (/ 10000000000)%R.
    rewrite photon_1_measured. reflexivity. }
  rewrite E. destruct (list_max [1] <=? 1); reflexivity.
Qed.

(** The recorded values do change: measure_optical_to_classical followed by
    set_classical_channels on the measured channel. *)
Theorem C26_refuted : exists rnd c h cs h1 cs1 h2 cs2,
  valid_coll h cs /\ isolated h cs /\
  hevaluate rnd c [1] h cs = Ok (h1, cs1, 0) /\ histories h1 cs1 = [[([0%R; 0%R], 1%R)]] /\
  hevaluate rnd c [2] h1 cs1 = Ok (h2, cs2, 0) /\ histories h2 cs1 = [[([0%R; 7%R], 1%R)]] /\ histories h2 cs2 = histories h2 cs1.
Proof.
  exists (fun _ => 0), circuit_1, heap_1, coll_1, heap_2, coll_2. do 2 eexists.
  split; [apply heap_1_valid|]. split; [apply heap_1_isolated|]. split; [apply circuit_1_measure|]. split; [reflexivity|].
  split; [reflexivity|]. split; reflexivity.
Qed.

(** ** C31 *)
Lemma hcopy_coll_eq h cs : valid_coll h cs -> hcopy_coll h cs = hcopy_with h cs (view h cs).
Proof.
  intros V. unfold hcopy_coll, hcopy_with.
  assert (G : forall l g out, incl l cs -> untouched h g ->
    fold_left (fun (acc : heap * hcoll) (it : ident * nat) =>
      let (h', a) := hcopy (fst acc) (state_at (fst acc) (snd it)) in (h', snd acc ++ [(fst it, a)])) l (g, out)
    = fold_left (fun (acc : heap * hcoll) (p : (ident * nat) * (ident * state)) =>
      let s := state_at (fst acc) (snd (fst p)) in
      let (h', a) := hcopy (fst acc) (h_with_comps s (s_comps (snd (snd p)))) in
      (h', snd acc ++ [(fst (snd p), a)])) (combine l (view h l)) (g, out)).
  { induction l as [|[i a] l IH]; intros g out Hin U; [reflexivity|]. cbn [view map combine fold_left fst snd]. fold (view h l).
    destruct (V i a (Hin _ (or_introl eq_refl))) as (W1 & W2 & W3).
    assert (Es : h_with_comps (state_at g a) (s_comps (deref h (state_at h a))) = state_at g a).
    { rewrite (untouched_state h g) by auto. now destruct (state_at h a). }
    cbv zeta. rewrite Es. unfold hcopy at 2 3. cbn [new_list new_state]. apply IH; [intros x Hx; apply Hin; now right|].
    eapply untouched_trans; [exact U|apply alloc_untouched]. }
  apply (G cs h []); [apply incl_refl|apply untouched_refl].
Qed.

Lemma hcopy_coll_spec h cs : valid_coll h cs ->
  let r := hcopy_coll h cs in Made no_more h cs (fst r) (snd r) /\ view (fst r) (snd r) = view h cs.
Proof.
  intros V r. unfold r. rewrite hcopy_coll_eq by exact V.
  destruct (hcopy_with_view h cs (view h cs) V (aligned_refl _)) as [E M]. auto.
Qed.

(** One change made by the user. *)
Lemma mutate_frame h a m : a < length (hp_states h) -> h_cl (state_at h a) < length (hp_lists h) -> not_history m ->
  (forall x, x < length (hp_lists h) -> x <> h_cl (state_at h a) -> list_at (mutate h a m) x = list_at h x) /\
  (forall b, b <> a -> state_at (mutate h a m) b = state_at h b) /\
  length (hp_lists h) <= length (hp_lists (mutate h a m)) /\ length (hp_states (mutate h a m)) = length (hp_states h) /\
  h_cl (state_at (mutate h a m) a) < length (hp_lists (mutate h a m)) /\
  (h_cl (state_at (mutate h a m) a) = h_cl (state_at h a) \/ length (hp_lists h) <= h_cl (state_at (mutate h a m) a)).
Proof.
  intros Ha Hl Hm.
  destruct m; try destruct Hm; unfold mutate; cbn [new_list].
  1-3,6-7: (split; [reflexivity|]; split; [intros; apply state_at_set_other; auto|]; split; [cbn; lia|]; split; [cbn; now rewrite put_length|];
    rewrite state_at_set_same by exact Ha; cbn; split; [exact Hl|now left]).
  - split; [|split; [|split; [|split; [|split]]]].
    + intros x Hx _. rewrite list_at_set_state. unfold list_at. cbn. now rewrite app_nth1.
    + intros b Hb. rewrite state_at_set_other by auto. reflexivity.
    + cbn. rewrite app_length. lia.
    + cbn. now rewrite put_length.
    + rewrite state_at_set_same by exact Ha. cbn. rewrite app_length. cbn. lia.
    + rewrite state_at_set_same by exact Ha. cbn. right. lia.
  - split; [|split; [|split; [|split; [|split]]]].
    + intros x Hx Hne. now apply list_at_set_other; auto.
    + reflexivity.
    + cbn. now rewrite put_length.
    + reflexivity.
    + cbn. rewrite put_length. exact Hl.
    + now left.
Qed.

Lemma mutate_all_frame (P : nat -> Prop) (A : list nat) n : forall ms h,
  Forall (fun am => In (fst am) A /\ not_history (snd am)) ms ->
  (forall x, P x -> x < n) -> n <= length (hp_lists h) ->
  (forall a, In a A -> a < length (hp_states h) /\ h_cl (state_at h a) < length (hp_lists h) /\ ~ P (h_cl (state_at h a))) ->
  (forall x, P x -> list_at (mutate_all h ms) x = list_at h x) /\
  (forall b, ~ In b A -> state_at (mutate_all h ms) b = state_at h b).
Proof.
  induction ms as [|[a m] ms IH]; intros h HF HP Hn HA; [split; reflexivity|].
  inversion HF as [|? ? [H1 H2] HF']; subst. cbn [fst snd] in *.
  destruct (HA a H1) as (B1 & B2 & B3). destruct (mutate_frame h a m B1 B2 H2) as (F1 & F2 & F3 & F4 & F5 & F6).
  destruct (IH (mutate h a m) HF' HP) as [G1 G2]; [lia| |].
  - intros b Hb. destruct (Nat.eq_dec b a) as [->|Hne].
    + split; [lia|]. split; [exact F5|]. destruct F6 as [->|F6]; [exact B3|]. intros Hp. apply HP in Hp. lia.
    + rewrite F2 by exact Hne. destruct (HA b Hb) as (D1 & D2 & D3). split; [lia|]. split; [lia|exact D3].
  - unfold mutate_all in *. cbn [fold_left fst snd]. split.
    + intros x Hx. rewrite G1 by exact Hx. apply F1; [apply HP in Hx; lia|]. intros ->. exact (B3 Hx).
    + intros b Hb. rewrite G2 by exact Hb. apply F2. intros ->. exact (Hb H1).
Qed.

(** A copy of a collection shows the same states. Any changes to the states of the copy - their
    labels, probabilities, components, classical values (also single entries), new records - leave
    the original and every other collection as they were. Excluded: writing into the lists inside
    measurement_results (C31_history_refuted). *)
Theorem C31_changing_the_copy_partial : forall h cs h1 cs1,
  valid_coll h cs -> hcopy_coll h cs = (h1, cs1) ->
  view h1 cs1 = view h cs /\
  (forall any, valid_coll h any -> view h1 any = view h any) /\
  (forall ms any, Forall (fun am => In (fst am) (map snd cs1) /\ not_history (snd am)) ms -> valid_coll h any ->
     view (mutate_all h1 ms) any = view h any).
Proof.
  intros h cs h1 cs1 V E. pose proof (hcopy_coll_spec h cs V) as [M Ev]. rewrite E in M, Ev. cbn [fst snd] in *.
  pose proof (made_untouched _ _ _ _ _ M) as U. pose proof (untouched_len h h1 U) as [L1 L2].
  split; [exact Ev|]. split; [intros any Va; now apply view_untouched|].
  intros ms any HF Va.
  destruct (mutate_all_frame (fun x => x < length (hp_lists h)) (map snd cs1) (length (hp_lists h)) ms h1 HF) as [G1 G2]; [auto|exact L1| |].
  { intros a Ha. apply in_map_iff in Ha. destruct Ha as ([i b] & <- & Hin). cbn [snd]. destruct (made_born _ _ _ _ _ M i b Hin) as (X & Y & _).
    split; [lia|]. split; [lia|lia]. }
  rewrite <- (view_untouched h h1 any Va U). unfold view. apply map_ext_in. intros [i a] Hin. cbn [fst snd]. f_equal.
  destruct (Va i a Hin) as (W1 & W2 & W3).
  assert (Es : state_at (mutate_all h1 ms) a = state_at h1 a).
  { apply G2. intros Ha. apply in_map_iff in Ha. destruct Ha as ([j b] & E' & Hj). cbn in E'. subst b.
    destruct (made_born _ _ _ _ _ M j a Hj) as (X & _). lia. }
  rewrite Es. rewrite (untouched_state h h1) by auto. unfold deref. f_equal; [apply G1; exact W2|].
  apply map_ext_in. intros [x p] Hx. cbn [fst snd]. f_equal. apply G1. eauto.
Qed.

(** The other way round: changes to the original leave the copy as it was, if no list of
    classical values of the original is recorded in a history (see C31_measured_refuted). *)
Theorem C31_changing_the_original_partial : forall h cs h1 cs1 ms,
  valid_coll h cs -> not_recorded h cs cs -> hcopy_coll h cs = (h1, cs1) ->
  Forall (fun am => In (fst am) (map snd cs) /\ not_history (snd am)) ms ->
  view (mutate_all h1 ms) cs1 = view h cs.
Proof.
  intros h cs h1 cs1 ms V Hr E HF. pose proof (hcopy_coll_spec h cs V) as [M Ev]. rewrite E in M, Ev. cbn [fst snd] in *.
  pose proof (made_untouched _ _ _ _ _ M) as U. pose proof (untouched_len h h1 U) as [L1 L2].
  set (P := fun x => recorded h cs x \/ exists i a, In (i, a) cs1 /\ x = h_cl (state_at h1 a)).
  destruct (mutate_all_frame P (map snd cs) (length (hp_lists h1)) ms h1 HF) as [G1 G2]; [|lia| |].
  - intros x [(i & a & p & K & L)|(i & a & K & ->)].
    + destruct (V i a K) as (_ & _ & W). apply W in L. lia.
    + destruct (made_born _ _ _ _ _ M i a K) as (_ & Y & _). lia.
  - intros a Ha. apply in_map_iff in Ha. destruct Ha as ([i b] & <- & Hin). cbn [snd]. destruct (V i b Hin) as (W1 & W2 & W3).
    rewrite (untouched_state h h1) by auto. split; [lia|]. split; [lia|]. intros [H|(j & d & K & E')].
    + exact (Hr i b Hin H).
    + destruct (made_born _ _ _ _ _ M j d K) as (_ & Y & _). lia.
  - rewrite <- Ev. unfold view. apply map_ext_in. intros [i a] Hin. cbn [fst snd]. f_equal.
    destruct (made_born _ _ _ _ _ M i a Hin) as (X & Y & i0 & a0 & more & H0 & Hres & Hm). rewrite Hm, app_nil_r in Hres.
    rewrite G2.
    2:{ intros Ha. apply in_map_iff in Ha. destruct Ha as ([j b] & E' & Hj). cbn in E'. subst b. destruct (V j a Hj) as (W & _). lia. }
    unfold deref. f_equal; [apply G1; right; eauto|]. rewrite Hres. apply map_ext_in. intros [x p] Hx. cbn [fst snd]. f_equal.
    apply G1. left. exists i0, a0, p. auto.
Qed.

(** The recorded lists are shared: writing into measurement_results of the copy changes the
    original. *)
Theorem C31_history_refuted : exists h cs h1 cs1 ms,
  valid_coll h cs /\ hcopy_coll h cs = (h1, cs1) /\ Forall (fun am => In (fst am) (map snd cs1)) ms /\
  view (mutate_all h1 ms) cs <> view h cs.
Proof.
  exists heap_2, coll_2. do 2 eexists. exists [(2, MHistory 0 1 7%R)].
  split; [intros i a [[= <- <-]|[]]; cbn; split; [lia|]; split; [lia|]; intros l p [[= <- <-]|[]]; lia|].
  split; [reflexivity|]. split; [constructor; [cbn; auto|constructor]|].
  cbn. intros E. injection E as E _. lra.
Qed.

(** After a measurement, setting a classical value of the original state also changes the history
    of a copy made before. *)
Theorem C31_measured_refuted : exists rnd c h0 cs0 h cs h1 cs1 a,
  valid_coll h0 cs0 /\ isolated h0 cs0 /\ hevaluate rnd c [1] h0 cs0 = Ok (h, cs, 0) /\
  hcopy_coll h cs = (h1, cs1) /\ In a (map snd cs) /\
  view (mutate_all h1 [(a, MWrite 1 7%R)]) cs1 <> view h1 cs1.
Proof.
  exists (fun _ => 0), circuit_1, heap_1, coll_1, heap_2, coll_2. do 2 eexists. exists 1.
  split; [apply heap_1_valid|]. split; [apply heap_1_isolated|]. split; [apply circuit_1_measure|].
  split; [reflexivity|]. split; [now left|]. cbn. intros E. injection E as E. lra.
Qed.

(** ** C32 *)

Lemma put_put {A} (l : list A) a x y : put (put l a x) a y = put l a y.
Proof. revert a. unfold put. induction l as [|z l IH]; intros [|a]; cbn; try reflexivity. f_equal. apply IH. Qed.

(** Different State objects: every one gets its own weight and the common label, nothing else
    changes. *)
Theorem C32_different_objects : forall lab h l h' cs',
  valid_coll h (map fst l) -> NoDup (map (fun x => snd (fst x)) l) -> hmixture lab h l = (h', cs') ->
  view h' cs' = map (fun x => let st := deref h (state_at h (snd (fst x))) in
       (fst (fst x), State lab (snd x) (s_comps st) (s_classical st) (s_results st) (s_aux st))) l.
Proof.
  intros lab h l h' cs' V ND E. unfold hmixture in E.
  set (stepf := fun (h : heap) (p : ident * nat * R) => mutate (mutate h (snd (fst p)) (MCum (snd p))) (snd (fst p)) (MInit lab)) in E.
  assert (Eh : h' = fold_left stepf l h) by exact (eq_sym (f_equal fst E)).
  assert (Ec : cs' = map fst l) by exact (eq_sym (f_equal snd E)).
  subst h' cs'. clear E.
  assert (One : forall (g : heap) (x : ident * nat * R), snd (fst x) < length (hp_states g) ->
     let a := snd (fst x) in let s := state_at g a in
     stepf g x = set_state g a (HState lab (snd x) (h_comps s) (h_cl s) (h_res s) (h_aux s))).
  { intros g [[i a] w] Ha. cbn [fst snd] in *. unfold stepf. cbn [fst snd].
    unfold mutate at 1. unfold mutate at 1. unfold mutate. cbv zeta.
    rewrite !state_at_set_same by exact Ha. cbn [h_comps h_cl h_res h_aux h_cum h_init].
    unfold set_state. cbn [hp_states hp_lists]. f_equal.
    apply put_put. }
  assert (G : forall (l : list (ident * nat * R)) g, (forall x, In x l -> snd (fst x) < length (hp_states g)) -> NoDup (map (fun x => snd (fst x)) l) ->
     (forall b, ~ In b (map (fun x => snd (fst x)) l) -> state_at (fold_left stepf l g) b = state_at g b) /\
     hp_lists (fold_left stepf l g) = hp_lists g /\
     (forall x, In x l -> let s := state_at g (snd (fst x)) in
        state_at (fold_left stepf l g) (snd (fst x)) = HState lab (snd x) (h_comps s) (h_cl s) (h_res s) (h_aux s))).
  { clear - One. induction l as [|x l IH]; intros g Hin ND; [cbn; tauto|]. cbn [map fold_left] in *. inversion ND as [|? ? Hx ND']; subst.
    assert (Hax : snd (fst x) < length (hp_states g)) by (apply Hin; now left).
    pose proof (One g x Hax) as E1. cbv zeta in E1.
    destruct (IH (stepf g x)) as (A & B & D).
    - intros y Hy. rewrite E1. unfold set_state. cbn [hp_states]. rewrite put_length. apply Hin. now right.
    - exact ND'.
    - split; [|split].
      + intros b Hb. cbn [In] in Hb. rewrite A by tauto. rewrite E1. apply state_at_set_other. tauto.
      + rewrite B, E1. reflexivity.
      + intros y [->|Hy]; cbv zeta.
        * rewrite A by exact Hx. rewrite E1. now rewrite state_at_set_same.
        * rewrite D by exact Hy. rewrite E1. rewrite state_at_set_other; [reflexivity|]. intros E. apply Hx. rewrite E.
          now apply (in_map (fun x => snd (fst x))). }
  destruct (G l h) as (_ & Hl & Hs); auto.
  { intros [[i a] w] Hx. cbn [fst snd]. apply (V i a). apply in_map_iff. exists (i, a, w). auto. }
  unfold view. rewrite map_map. apply map_ext_in. intros x Hx. cbv zeta. f_equal. rewrite (Hs x Hx). unfold deref. cbn.
  unfold list_at. rewrite Hl. reflexivity.
Qed.

(** The same State object listed twice: both members get the last weight, so the weights no
    longer add up to 1. *)
Theorem C32_same_object_refuted : exists h l h' cs',
  valid_coll h (map fst l) /\ Rsum l snd = 1%R /\ NoDup (map (fun x => fst (fst x)) l) /\
  hmixture [120] h l = (h', cs') /\ Rsum (view h' cs') (fun it => s_cum (snd it)) <> 1%R.
Proof.
  exists heap_1, [([97], 0, (/4)%R); ([98], 0, (3/4)%R)]. do 2 eexists.
  split; [intros i a [[= <- <-]|[[= <- <-]|[]]]; cbn; (split; [lia|]; split; [lia|]; intros l p [])|].
  split; [unfold Rsum; cbn; lra|]. split; [repeat constructor; cbn; intuition discriminate|]. split; [reflexivity|].
  unfold Rsum. cbn. lra.
Qed.

(** ** A case for the theorems of this file *)
Example heap_case :
  valid_coll heap_1 coll_1 /\ isolated heap_1 coll_1 /\ NoDup (map fst coll_1) /\ no_write_after_measure true circuit_1 [1] /\
  is_classical (hnode_at circuit_1 1) = false /\
  hevaluate (fun _ => 0) circuit_1 [1] heap_1 coll_1 = Ok (heap_2, coll_2, 0) /\
  view heap_2 coll_2 <> view heap_1 coll_1 /\ ~ no_write_after_measure true circuit_1 [1; 2].
Proof.
  split; [apply heap_1_valid|]. split; [apply heap_1_isolated|]. split; [repeat constructor; intros []|].
  split; [cbn; exact I|]. split; [reflexivity|]. split; [apply circuit_1_measure|].
  split; [discriminate|]. cbn. intros [[H|H] _]; [discriminate|]. specialize (H [0%R; 0%R]). cbn in H. injection H as H. lra.
Qed.
