From Coq Require Import Reals List Arith Lia Lra Bool Permutation Sorted.
From Coquelicot Require Import Complex.
From Verif Require Import Prelude NamesModel NamesSpec NamesProofs FockModel FockSpec FockProofs GateProofs
  OpticalModel StateModel StateSpec StateProofs ApplyProofs CollectionModel EvalModel EvalSpec EvalProofs MeasureSpec MeasureProofs.
Import ListNotations.

(** ** Random identifiers are fresh *)
Lemma fresh_loop_fresh fuel : forall rnd seed keys i,
  length (filter (fun k => length i <=? length k) keys) < fuel ->
  ~ In (fst (fresh_loop fuel rnd seed keys i)) keys.
Proof.
  induction fuel as [|f IH]; intros rnd seed keys i Hf; [lia|]. cbn [fresh_loop].
  destruct (existsb (leqb i) keys) eqn:E.
  - apply IH. apply existsb_leqb_in in E.
    assert (G : forall l, In i l ->
       length (filter (fun k => length (i ++ [alphabet (rnd seed)]) <=? length k) l)
       < length (filter (fun k => length i <=? length k) l)).
    { rewrite app_length. cbn [length].
      assert (Hle : forall l, length (filter (fun k => length i + 1 <=? length k) l) <= length (filter (fun k : list nat => length i <=? length k) l)).
      { induction l as [|x l IHl]; [auto|]. cbn [filter].
        destruct (length i + 1 <=? length x) eqn:A, (length i <=? length x) eqn:B; cbn [length]; try lia.
        apply Nat.leb_le in A. apply Nat.leb_gt in B. lia. }
      induction l as [|x l IHl]; intros []; cbn [filter].
      - subst x. rewrite Nat.leb_refl. replace (length i + 1 <=? length i) with false by (symmetry; apply Nat.leb_gt; lia).
        cbn [length]. specialize (Hle l). lia.
      - specialize (IHl H).
        destruct (length i + 1 <=? length x) eqn:A, (length i <=? length x) eqn:B; cbn [length]; try lia.
        apply Nat.leb_le in A. apply Nat.leb_gt in B. lia. }
    specialize (G keys E). lia.
  - cbn [fst]. intros H. apply existsb_leqb_in in H. congruence.
Qed.

Lemma random_identifier_fresh rnd seed keys : ~ In (fst (random_identifier rnd seed keys)) keys.
Proof.
  unfold random_identifier. apply fresh_loop_fresh.
  assert (length (filter (fun k => length (identifier_ ++ [alphabet (rnd seed)]) <=? length k) keys) <= length keys); [|lia].
  induction keys as [|k ks IH]; [auto|]. cbn [filter length]. destruct (_ <=? _); cbn [length]; lia.
Qed.

Lemma add_state_random_app rnd seed st its :
  fst (add_state_random rnd seed st its)
  = its ++ [(fst (random_identifier rnd seed (dkeys its)), st)].
Proof.
  unfold add_state_random. destruct (random_identifier rnd seed (dkeys its)) as [i sd] eqn:E. cbn [fst].
  unfold add_state. apply (dset_fresh leqb leqb_spec).
  replace i with (fst (random_identifier rnd seed (dkeys its))) by now rewrite E. apply random_identifier_fresh.
Qed.

Lemma NoDup_snoc {A} (l : list A) x : NoDup l -> ~ In x l -> NoDup (l ++ [x]).
Proof.
  intros ND Hx. induction l as [|a l IH]; cbn [app]; [constructor; [auto|constructor]|].
  inversion ND; subst. constructor.
  - intros H. apply in_app_or in H. destruct H as [H|[H|[]]]; [auto|]. subst. apply Hx. now left.
  - apply IH; auto. intros H. apply Hx. now right.
Qed.

Lemma add_state_random_nodup rnd seed st its :
  NoDup (dkeys its) -> NoDup (dkeys (fst (add_state_random rnd seed st its))).
Proof.
  intros ND. rewrite add_state_random_app. unfold dkeys. rewrite map_app. cbn [map fst].
  apply NoDup_snoc; auto. apply random_identifier_fresh.
Qed.

(** ** Every node keeps collections well formed *)
Lemma custom_items_inv c rnd M : forall its acc sd out sd',
  fold_left (fun (acc : option (items * nat)) (it : ident * state) =>
      match acc, copy_state (c_eps c) (c_ncl c) (snd it) with
      | Some (out, sd), Some st =>
          let v := mat_vec (size_of_basis (c_D c)) M (state_vector (c_D c) (snd it)) in
          Some (add_state_random rnd sd (with_comps st (components_from_vector (c_D c) (c_eps c) v)) out)
      | _, _ => None
      end) its (Some (acc, sd)) = Some (out, sd') ->
  map snd out = map snd acc ++ map (fun it => with_comps (snd it) (components_from_vector (c_D c) (c_eps c)
      (mat_vec (size_of_basis (c_D c)) M (state_vector (c_D c) (snd it))))) its /\
  (NoDup (dkeys acc) -> NoDup (dkeys out)).
Proof.
  induction its as [|[i st] its IH]; intros acc sd out sd' E; cbn [fold_left] in E.
  - injection E as <- <-. cbn [map]. rewrite app_nil_r. auto.
  - cbn [snd] in E. destruct (copy_state (c_eps c) (c_ncl c) st) as [st'|] eqn:Ec.
    2:{ exfalso. clear - E. induction its; cbn [fold_left] in E; [discriminate|auto]. }
    assert (st' = st) as ->.
    { unfold copy_state, make_state in Ec. destruct (check_state _ _ st); [now injection Ec|discriminate]. }
    cbv zeta in E.
    set (ns := with_comps st _) in E. destruct (add_state_random rnd sd ns acc) as [acc2 sd2] eqn:Ea.
    apply IH in E. destruct E as [E1 E2].
    assert (Ea' : acc2 = fst (add_state_random rnd sd ns acc)) by now rewrite Ea.
    split.
    + rewrite E1, Ea', add_state_random_app, map_app. cbn [map snd]. now rewrite <- app_assoc.
    + intros ND. apply E2. rewrite Ea'. now apply add_state_random_nodup.
Qed.

Lemma custom_items_wf c rnd M its seed out seed' :
  1 <= dL (c_D c) -> (c_eps c <= 0)%R -> custom_items c rnd M its seed = Some (out, seed') -> wf_items (c_D c) out.
Proof.
  intros HL He E. apply custom_items_inv in E. destruct E as [E ND]. split; [apply ND; constructor|].
  cbn [map app] in E. apply Forall_forall. intros it Hit. apply (in_map snd) in Hit. rewrite E in Hit.
  apply in_map_iff in Hit. destruct Hit as (it0 & <- & _). split.
  - now apply components_wf.
  - now apply components_nonempty.
Qed.

Lemma classical_items_inv c f nv chs its out :
  classical_items c f nv chs its = Some out ->
  out = map (fun it => (fst it, with_classical (snd it) (f (s_classical (snd it)) nv chs))) its /\
  Forall (fun it => length (f (s_classical (snd it)) nv chs) = c_ncl c) its.
Proof.
  unfold classical_items. intros E. apply option_list_some in E. revert out E.
  induction its as [|[i st] its IH]; intros [|o out] E; try discriminate; [auto|].
  cbn [map] in E. injection E as E1 E2. destruct (IH _ E2) as [-> F]. cbn [fst snd] in *.
  destruct (Nat.eqb_spec (length (f (s_classical st) nv chs)) (c_ncl c)); [|discriminate].
  injection E1 as <-. split; [reflexivity|]. constructor; auto.
Qed.

Lemma classical_items_wf c f nv chs its out :
  wf_items (c_D c) its -> classical_items c f nv chs its = Some out -> wf_items (c_D c) out.
Proof.
  intros [ND HF] E. apply classical_items_inv in E. destruct E as [-> _]. split.
  - unfold dkeys in *. rewrite map_map. cbn [fst]. exact ND.
  - apply Forall_map. eapply Forall_impl; [|exact HF]. intros it [H1 H2]. cbn [snd]. split; auto.
Qed.

Lemma measure_items_wf c k opt cl its out :
  1 <= dL (c_D c) -> wf_items (c_D c) its -> measure_items c k opt cl its = Some out -> wf_items (c_D c) out.
Proof.
  intros HL [ND HF] E. apply measure_items_inv in E; auto. destruct E as (rs & HR & ->).
  destruct (measurement_number_ok (c_nodes c) k) as [Hn1 Hn2]. split.
  - now apply measured_nodup.
  - apply Forall_forall. intros it Hit. apply in_concat in Hit. destruct Hit as (l & Hl & Hit).
    apply in_map_iff in Hl. destruct Hl as ([it0 sts] & <- & Hc). cbn [fst snd] in Hit.
    apply (in_map snd) in Hit. rewrite relabel_vals in Hit.
    assert (Hp : perform_measurement (c_D c) (c_ncl c) (c_eps c) opt cl (snd it0) = Some sts).
    { clear - HR Hc. induction HR; cbn [combine] in Hc; [destruct Hc|]. destruct Hc as [[= -> ->]|Hc]; auto. }
    apply in_combine_l in Hc. rewrite Forall_forall in HF. specialize (HF _ Hc). destruct HF as [Hw _].
    apply perform_inv in Hp; auto.
    assert (H : exists o, outcome_prob (c_D c) (snd it0) opt o <> 0%R /\ exists p, snd it = collapse (c_D c) opt cl o (snd it0) p).
    { clear - Hp Hit. induction Hp as [|o s os ss (H1 & _ & p & H2 & _) _ IH]; [destruct Hit|].
      destruct Hit as [<-|Hit]; eauto. }
    destruct H as (o & Hne & p & ->). split; [now apply collapse_wf|now apply collapse_nonempty].
Qed.

(** One controlled gate. *)
Lemma controlled_items_inv c t p vars tl : wf_circuit c -> Permutation tl (seq 0 (dN (c_D c))) ->
  forall its, wf_items (c_D c) its -> forall out,
  controlled_items c t p vars tl its = Some out ->
  exists angles, Forall2 (fun it a => controlled_angles t p vars (s_classical (snd it)) = Some a /\
                            check_state (c_eps c) (c_ncl c) (snd it) = true) its angles /\
  out = map (fun x => (fst (fst x), optical_step (c_D c) (c_eps c) [ONode (generic_matrix (fst (snd x)) (snd (snd x))) tl] (snd (fst x))))
            (combine its angles).
Proof.
  intros (HL & HN & HK & _) HP its Hw. unfold controlled_items. set (stepf := fun _ _ => _).
  assert (G : forall its acc, wf_items (c_D c) its -> (forall i, In i (dkeys its) -> ~ In i (dkeys acc)) ->
    forall out, fold_left stepf its (Some acc) = Some out ->
    exists angles, Forall2 (fun it a => controlled_angles t p vars (s_classical (snd it)) = Some a /\
                            check_state (c_eps c) (c_ncl c) (snd it) = true) its angles /\
    out = acc ++ map (fun x => (fst (fst x), optical_step (c_D c) (c_eps c) [ONode (generic_matrix (fst (snd x)) (snd (snd x))) tl] (snd (fst x))))
            (combine its angles)).
  { clear its Hw. induction its as [|[i st] its IH]; intros acc Hw Hfr out E; cbn [fold_left] in E.
    - injection E as <-. exists []. split; [constructor|]. cbn. now rewrite app_nil_r.
    - assert (Hnone : forall l, fold_left stepf l None = None) by (induction l; [reflexivity|cbn [fold_left]; auto]).
      unfold stepf at 2 in E. cbn [snd] in E. destruct (controlled_angles t p vars (s_classical st)) as [[t' p']|] eqn:Ea;
        [|rewrite Hnone in E; discriminate].
      destruct (apply_optical _ _ _ _ _ _ _) as [res|] eqn:Eo; [|rewrite Hnone in E; discriminate].
      pose proof (apply_optical_checks _ _ _ _ _ _ _ _ Eo) as Hck.
      destruct Hw as [ND HF]. cbn [dkeys map fst] in ND. inversion ND; subst. inversion HF; subst.
      rewrite HK, fresh_keys_all, apply_optical_spec in Eo; auto.
      2:{ constructor; [exact HP|constructor]. } 2:{ discriminate. }
      2:{ cbn. constructor; [intros []|constructor]. }
      injection Eo as <-. cbn [map fold_left fst snd] in E. unfold add_state in E.
      rewrite (dset_fresh leqb leqb_spec) in E by (apply Hfr; now left).
      apply IH in E; [|split; auto|].
      + destruct E as (angles & HA & ->). exists ((t', p') :: angles). split.
        * constructor; auto. split; auto. now inversion Hck.
        * cbn [combine map fst snd]. now rewrite <- app_assoc.
      + intros j Hj Hin. unfold dkeys in Hin. rewrite map_app in Hin. apply in_app_or in Hin. destruct Hin as [Hin|[<-|[]]].
        * revert Hin. apply Hfr. now right.
        * contradiction. }
  intros out E. apply G in E; auto.
Qed.

Lemma combine_map_fst_all {A B C} (R : A -> B -> Prop) (f : A -> C) l1 l2 :
  Forall2 R l1 l2 -> map (fun x => f (fst x)) (combine l1 l2) = map f l1.
Proof. induction 1; cbn [combine map fst]; congruence. Qed.

Lemma controlled_items_wf c t p vars tl its out :
  wf_circuit c -> Permutation tl (seq 0 (dN (c_D c))) -> (c_eps c <= 0)%R -> wf_items (c_D c) its ->
  controlled_items c t p vars tl its = Some out -> wf_items (c_D c) out.
Proof.
  intros Hc HP He Hw E. apply controlled_items_inv in E; auto. destruct E as (an & HA & ->). split.
  - unfold dkeys. rewrite map_map. cbn [fst]. erewrite (combine_map_fst_all _ fst); eauto. apply Hw.
  - apply Forall_forall. intros it H. apply in_map_iff in H. destruct H as (x & <- & _). cbn [snd].
    destruct Hc as (HL & _). split; [now apply components_wf|now apply components_nonempty].
Qed.

Lemma run_node_wf X rnd c k cs seed cs' seed' inds :
  wf_circuit c -> (c_eps c <= 0)%R -> functions_wf X c inds -> In k inds -> k < length (c_nodes c) ->
  wf_items (c_D c) (co_items cs) -> run_node X rnd c k cs seed = Some (cs', seed') -> wf_items (c_D c) (co_items cs').
Proof.
  intros Hc He (X1 & X2 & HF) Hk Hlt Hw. unfold run_node.
  assert (Hn : wf_node (c_D c) (node_at c k)).
  { destruct Hc as (_ & _ & _ & Hn). rewrite Forall_forall in Hn. apply Hn. now apply node_at_in. }
  destruct (node_at c k) eqn:Ek; try discriminate; cbn [wf_node] in Hn; intros E.
  - destruct (custom_items _ _ _ _ _) as [[o s]|] eqn:E1; [|discriminate]. injection E as <- <-.
    eapply custom_items_wf; eauto. apply Hc.
  - destruct (classical_items _ _ _ _ _) as [o|] eqn:E1; [|discriminate]. injection E as <- <-.
    eapply classical_items_wf; eauto.
  - destruct (all_have AuxPhotonResolution _).
    { destruct (x_resolved _ _ _ _) as [o|] eqn:E1; [|discriminate]. injection E as <- <-. eauto. }
    destruct (all_have AuxPopescuRohrlich _).
    { destruct (x_pr _ _ _ _) as [o|] eqn:E1; [|discriminate]. injection E as <- <-. eauto. }
    destruct (measure_items _ _ _ _ _) as [o|] eqn:E1; [|discriminate]. injection E as <- <-.
    eapply measure_items_wf; eauto. apply Hc.
  - destruct (controlled_items _ _ _ _ _ _) as [o|] eqn:E1; [|discriminate]. injection E as <- <-.
    eapply controlled_items_wf; eauto.
  - destruct (f cs) as [o|] eqn:E1; [|discriminate]. injection E as <- <-. eapply HF; eauto.
Qed.

Lemma run_optical_wf c ks cs out :
  wf_circuit c -> (c_eps c <= 0)%R -> wf_items (c_D c) (co_items cs) -> ks <> [] ->
  (forall k, In k ks -> k < length (c_nodes c) /\ is_optical (node_at c k) = true) ->
  run_optical c ks cs = Some out -> wf_items (c_D c) (co_items out).
Proof.
  intros Hc He Hw Hne Hk E. apply run_optical_inv in E; auto. destruct E as [_ ->]. cbn [co_items coll_of].
  now apply opt_step_wf.
Qed.

(** ** One node at a time *)
Lemma functions_wf_sub X c l l' : (forall k, In k l' -> In k l) -> functions_wf X c l -> functions_wf X c l'.
Proof. intros H (A & B & F). split; [auto|]. split; [auto|]. intros k f cs cs' Hk. apply F. auto. Qed.

Lemma evalR_single_optical X rnd c k cs seed :
  k < length (c_nodes c) -> is_optical (node_at c k) = true ->
  evalR X rnd c [k] cs seed = match run_optical c [k] cs with None => Raise | Some cs' => Ok (cs', seed) end.
Proof.
  intros Hk Ho. rewrite evalR_sorted by (repeat constructor). cbn [forallb]. rewrite (proj2 (Nat.ltb_lt _ _) Hk). cbn [andb negb].
  cbn [optical_prefix]. rewrite Ho. destruct (node_at c k); try discriminate. cbn [length skipn].
  destruct (run_optical c [k] cs); [|reflexivity]. now rewrite evalR_nil.
Qed.

Lemma one_by_one_sound X rnd c inds : forall cs seed r,
  wf_circuit c -> (c_eps c <= 0)%R -> wf_items (c_D c) (co_items cs) ->
  StronglySorted lt inds -> functions_wf X c inds ->
  (forall k, In k inds -> is_bridge (node_at c k) = false) ->
  one_by_one X rnd c inds cs seed = Ok r -> evalR X rnd c inds cs seed = Ok r.
Proof.
  induction inds as [|k rest IH]; intros cs seed r Hc He Hw HS HF Hb E.
  - cbn [one_by_one] in E. now rewrite evalR_nil.
  - cbn [one_by_one] in E. rewrite evaluate_from_evalR in E.
    assert (Hin : k < length (c_nodes c)).
    { destruct (le_lt_dec (length (c_nodes c)) k) as [H|H]; [|exact H]. exfalso.
      rewrite evalR_unfold in E. cbn [forallb] in E. rewrite (proj2 (Nat.ltb_ge _ _) H) in E. discriminate. }
    destruct (evalR X rnd c [k] cs seed) as [[cs1 seed1]| |] eqn:E1; try discriminate. cbn [rbind fst snd] in E.
    assert (HS' : StronglySorted lt rest) by (now inversion HS).
    assert (HF' : functions_wf X c rest) by (eapply functions_wf_sub; [|exact HF]; intros; now right).
    assert (Hb' : forall j, In j rest -> is_bridge (node_at c j) = false) by (intros; apply Hb; now right).
    assert (Hw1 : wf_items (c_D c) (co_items cs1)).
    { destruct (is_optical (node_at c k)) eqn:Ho.
      - rewrite evalR_single_optical in E1 by auto. destruct (run_optical c [k] cs) eqn:Er; [|discriminate].
        injection E1 as <- <-. apply (run_optical_wf c [k] cs); auto; [discriminate|]. intros j Hj. destruct Hj as [<-|Hj]; [auto|destruct Hj].
      - rewrite evalR_sorted in E1 by (repeat constructor). cbn [forallb] in E1.
        rewrite (proj2 (Nat.ltb_lt _ _) Hin) in E1. cbn [andb negb] in E1.
        specialize (Hb k (or_introl eq_refl)).
        destruct (run_node X rnd c k cs seed) as [[cs2 seed2]|] eqn:Er.
        + assert (cs2 = cs1) as ->.
          { destruct (node_at c k); try discriminate; rewrite evalR_nil in E1; now injection E1. }
          apply (run_node_wf X rnd c k cs seed cs1 seed2 (k :: rest)); auto. now left.
        + destruct (node_at c k); discriminate. }
    pose proof (IH cs1 seed1 r Hc He Hw1 HS' HF' Hb' E) as ER.
    assert (Hrange : forallb (fun i => i <? length (c_nodes c)) rest = true).
    { destruct rest as [|b rest']; [reflexivity|]. rewrite evalR_unfold in ER.
      destruct (forallb _ _) eqn:F; [reflexivity|discriminate]. }
    destruct rest as [|b rest'].
    { rewrite evalR_nil in ER. rewrite E1. exact ER. }
    destruct (is_optical (node_at c k) && is_optical (node_at c b)) eqn:Ecut.
    + apply andb_true_iff in Ecut. destruct Ecut as [Ok_ Ob].
      rewrite evalR_single_optical in E1 by auto. destruct (run_optical c [k] cs) as [cs1'|] eqn:Er; [|discriminate].
      injection E1 as -> ->.
      rewrite evalR_sorted in ER by auto. rewrite Hrange in ER. cbn [negb] in ER.
      assert (Eb : match node_at c b with NOptical _ _ => True | _ => False end) by (destruct (node_at c b); try discriminate; exact I).
      assert (ER' : match run_optical c (optical_prefix c (b :: rest')) cs1 with
                    | None => Raise
                    | Some cs' => evalR X rnd c (skipn (length (optical_prefix c (b :: rest'))) (b :: rest')) cs' seed1
                    end = Ok r) by (destruct (node_at c b); try destruct Eb; exact ER).
      clear ER. destruct (run_optical c (optical_prefix c (b :: rest')) cs1) as [cs2|] eqn:Er2; [|discriminate].
      assert (Hcut : run_optical c (k :: optical_prefix c (b :: rest')) cs = Some cs2).
      { eapply run_optical_cut; eauto.
        - cbn [optical_prefix]. rewrite Ob. discriminate.
        - intros j [<-|Hj]; [auto|]. split.
          + rewrite forallb_forall in Hrange. apply Nat.ltb_lt. apply Hrange.
            destruct (optical_prefix_app c (b :: rest')) as (t & Et). rewrite Et. apply in_or_app. now left.
          + eapply optical_prefix_in; eauto. }
      rewrite evalR_sorted by auto. cbn [forallb]. cbn [forallb] in Hrange.
      rewrite (proj2 (Nat.ltb_lt _ _) Hin), Hrange. cbn [andb negb].
      assert (Ek : optical_prefix c (k :: b :: rest') = k :: optical_prefix c (b :: rest')).
      { cbn [optical_prefix]. now rewrite Ok_. }
      rewrite Ek, Hcut. destruct (node_at c k); try discriminate. cbn [length skipn]. exact ER'.
    + change (k :: b :: rest') with ([k] ++ (b :: rest')). rewrite evalR_split.
      * rewrite E1. cbn [rbind fst snd]. exact ER.
      * exact HS.
      * cbn [cut_ok last]. apply andb_false_iff in Ecut. tauto.
      * cbn [app forallb]. cbn [forallb] in Hrange. now rewrite (proj2 (Nat.ltb_lt _ _) Hin), Hrange.
      * intros j Hj. destruct Hj as [<-|Hj]; [|destruct Hj]. apply Hb. now left.
Qed.

(** ** The choice between full and reduced matrices *)
Lemma run_optical_full b b' c ks cs :
  wf_circuit c -> wf_items (c_D c) (co_items cs) -> ks <> [] ->
  (forall k, In k ks -> k < length (c_nodes c) /\ is_optical (node_at c k) = true) ->
  run_optical (with_full b c) ks cs = run_optical (with_full b' c) ks cs.
Proof.
  intros Hc Hw Hne Hk.
  assert (G : forall b out, run_optical (with_full b c) ks cs = Some out ->
     forall b', run_optical (with_full b' c) ks cs = Some out).
  { intros b0 out E b1. apply run_optical_inv in E; auto. destruct E as [Hck ->].
    now apply (run_optical_spec (with_full b1 c)). }
  destruct (run_optical (with_full b c) ks cs) as [o|] eqn:E.
  - symmetry. eapply G; eauto.
  - destruct (run_optical (with_full b' c) ks cs) as [o|] eqn:E'; [|reflexivity].
    rewrite (G _ _ E' b) in E. discriminate.
Qed.

Lemma controlled_items_full b b' c t p vars tl its :
  wf_circuit c -> Permutation tl (seq 0 (dN (c_D c))) -> wf_items (c_D c) its ->
  controlled_items (with_full b c) t p vars tl its = controlled_items (with_full b' c) t p vars tl its.
Proof.
  intros (HL & HN & HK & _) HP [ND HF]. unfold controlled_items. cbn [c_D c_ncl c_eps c_full c_keys with_full].
  set (f := fun _ _ => _). set (g := fun _ _ => _).
  assert (Efg : forall acc it, In it its -> f acc it = g acc it).
  { intros acc it Hit. unfold f, g. destruct acc as [out|]; [|reflexivity].
    destruct (controlled_angles t p vars (s_classical (snd it))) as [[t' p']|]; [|reflexivity].
    assert (Eo : apply_optical (c_D c) (c_ncl c) (c_eps c) b (c_keys c) [ONode (generic_matrix t' p') tl] [it]
               = apply_optical (c_D c) (c_ncl c) (c_eps c) b' (c_keys c) [ONode (generic_matrix t' p') tl] [it]).
    { destruct (check_state (c_eps c) (c_ncl c) (snd it)) eqn:Eck.
      - rewrite HK, fresh_keys_all by auto. rewrite Forall_forall in HF. specialize (HF _ Hit).
        assert (T1 : tl_ok (c_D c) [ONode (generic_matrix t' p') tl]) by (apply Forall_cons; [exact HP|apply Forall_nil]).
        assert (T2 : NoDup (dkeys [it])) by (cbn [dkeys map]; apply NoDup_cons; [intros []|apply NoDup_nil]).
        rewrite !apply_optical_spec; auto; discriminate.
      - unfold apply_optical, copy_items. cbn [map]. unfold copy_state, make_state. rewrite Eck. reflexivity. }
    now rewrite Eo. }
  generalize (Some (@nil (ident * state))). revert Efg. clear. induction its as [|x l IH]; intros H a; [reflexivity|].
  cbn [fold_left]. rewrite H by now left. apply IH. intros; apply H; now right.
Qed.

Lemma run_node_full b b' X rnd c k cs seed :
  wf_circuit c -> k < length (c_nodes c) -> wf_items (c_D c) (co_items cs) ->
  run_node X rnd (with_full b c) k cs seed = run_node X rnd (with_full b' c) k cs seed.
Proof.
  intros Hc Hk Hw. assert (Hn : wf_node (c_D c) (node_at c k)).
  { destruct Hc as (_ & _ & _ & Hn). rewrite Forall_forall in Hn. apply Hn. now apply node_at_in. }
  unfold run_node. change (node_at (with_full b c) k) with (node_at c k). change (node_at (with_full b' c) k) with (node_at c k).
  destruct (node_at c k) eqn:Ek; try reflexivity. rewrite (controlled_items_full b b'); auto.
Qed.

Lemma optical_prefix_full b c l : optical_prefix (with_full b c) l = optical_prefix c l.
Proof. induction l as [|k l IH]; [reflexivity|]. cbn [optical_prefix]. now rewrite IH. Qed.

Lemma evalR_full b b' X rnd c : wf_circuit c -> (c_eps c <= 0)%R ->
  (forall k, In k (seq 0 (length (c_nodes c))) -> is_bridge (node_at c k) = false) ->
  functions_wf X c (seq 0 (length (c_nodes c))) ->
  forall n inds cs seed, length inds <= n -> wf_items (c_D c) (co_items cs) ->
  evalR X rnd (with_full b c) inds cs seed = evalR X rnd (with_full b' c) inds cs seed.
Proof.
  intros Hc He Hb HF. induction n as [|n IH]; intros inds cs seed Hn Hw.
  - destruct inds; [|cbn [length] in Hn; lia]. now rewrite !evalR_nil.
  - rewrite !(evalR_unfold X rnd (with_full _ c)). destruct inds as [|k r]; [reflexivity|].
    change (c_nodes (with_full b c)) with (c_nodes c). change (c_nodes (with_full b' c)) with (c_nodes c).
    change (node_at (with_full b c) k) with (node_at c k). change (node_at (with_full b' c) k) with (node_at c k).
    destruct (forallb _ _) eqn:Er; [|reflexivity]. cbn [negb].
    assert (Hr : forall j, In j (k :: r) -> j < length (c_nodes c)).
    { intros j Hj. rewrite forallb_forall in Er. apply Nat.ltb_lt. now apply Er. }
    assert (Hkn : In k (seq 0 (length (c_nodes c)))) by (apply in_seq; specialize (Hr k (or_introl eq_refl)); lia).
    specialize (Hb k Hkn).
    destruct (is_optical (node_at c k)) eqn:Ho.
    + rewrite !optical_prefix_full.
      assert (Hks : forall j, In j (optical_prefix c (k :: r)) -> j < length (c_nodes c) /\ is_optical (node_at c j) = true).
      { intros j Hj. split; [|now apply optical_prefix_in in Hj]. apply Hr.
        destruct (optical_prefix_app c (k :: r)) as (t & Et). rewrite Et. apply in_or_app. now left. }
      assert (Hne : optical_prefix c (k :: r) <> []) by (cbn [optical_prefix]; rewrite Ho; discriminate).
      rewrite (run_optical_full b b') by auto. cbv zeta.
      destruct (run_optical (with_full b' c) (optical_prefix c (k :: r)) cs) as [cs'|] eqn:E; [|now destruct (node_at c k)].
      rewrite (IH (if list_max (k :: r) <=? list_max (optical_prefix c (k :: r)) then [] else skipn (length (optical_prefix c (k :: r))) (k :: r))).
      * destruct (node_at c k); try discriminate. reflexivity.
      * destruct (_ <=? _); cbn [length] in *; [lia|]. rewrite skipn_length. cbn [length optical_prefix]. rewrite Ho. cbn [length]. lia.
      * apply (run_optical_wf (with_full b' c) (optical_prefix c (k :: r)) cs); auto.
    + rewrite (run_node_full b b') by (auto; apply Hr; now left). cbv zeta.
      destruct (run_node X rnd (with_full b' c) k cs seed) as [[cs' seed']|] eqn:E; [|destruct (node_at c k); try reflexivity; discriminate].
      rewrite (IH (if list_max (k :: r) <=? k then [] else r)).
      * destruct (node_at c k); try discriminate; reflexivity.
      * destruct (_ <=? _); cbn [length] in *; lia.
      * apply (run_node_wf X rnd (with_full b' c) k cs seed cs' seed' (seq 0 (length (c_nodes c)))); auto.
        apply Hr. now left.
Qed.
