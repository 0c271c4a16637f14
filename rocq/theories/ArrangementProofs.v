(** Combinatorics of the photon-resolved measurement. *)
From Coq Require Import Reals List Arith Lia Lra Bool Permutation FinFun.
From Coquelicot Require Import Complex.
From Verif Require Import Prelude NamesModel NamesSpec NamesProofs FockModel FockProofs StateModel ColumnModel ColumnSpec ColumnProofs TemporalSpec InterferenceSpec.
Import ListNotations.

(** ** Permutations *)
Lemma inserts_in {A} (x : A) l p : In p (inserts x l) <-> exists a b, l = a ++ b /\ p = a ++ x :: b.
Proof.
  revert p. induction l as [|y r IH]; intro p; cbn [inserts].
  - split.
    + intros [<-|[]]. exists [], []. split; reflexivity.
    + intros [a [b [E ->]]]. symmetry in E. apply app_eq_nil in E. destruct E as [-> ->]. left. reflexivity.
  - split.
    + intros [<-|H]; [exists [], (y :: r); split; reflexivity|]. apply in_map_iff in H. destruct H as [q [<- H]]. apply IH in H.
      destruct H as [a [b [-> ->]]]. exists (y :: a), b. split; reflexivity.
    + intros [a [b [E ->]]]. destruct a as [|z a]; [left; cbn in *; subst b; reflexivity|]. right. cbn in E. injection E as <- ->.
      apply in_map_iff. exists (a ++ x :: b). split; [reflexivity|]. apply IH. exists a, b. split; reflexivity.
Qed.
Lemma permutations_in {A} (l p : list A) : In p (permutations l) <-> Permutation l p.
Proof.
  revert p. induction l as [|x r IH]; intro p; cbn [permutations].
  - split; [intros [<-|[]]; constructor|]. intro H. apply Permutation_nil in H. left. symmetry. exact H.
  - rewrite in_flat_map. split.
    + intros [q [Hq H]]. apply IH in Hq. apply inserts_in in H. destruct H as [a [b [-> ->]]]. rewrite Hq. apply Permutation_middle.
    + intro H. assert (Hin : In x p) by (apply (Permutation_in _ H); left; reflexivity). apply in_split in Hin. destruct Hin as [a [b ->]].
      apply Permutation_cons_app_inv in H. exists (a ++ b). split; [apply IH; exact H|]. apply inserts_in. exists a, b. split; reflexivity.
Qed.
Lemma NoDup_app_intro {A} (l l' : list A) : NoDup l -> NoDup l' -> (forall z, In z l -> ~ In z l') -> NoDup (l ++ l').
Proof.
  induction 1 as [|x l Hx Hl IH]; intros H' Hd; [exact H'|]. cbn [app]. constructor.
  - intro Z. apply in_app_iff in Z. destruct Z as [Z|Z]; [exact (Hx Z)|exact (Hd x (or_introl eq_refl) Z)].
  - apply IH; [exact H'|]. intros z Hz. apply Hd. right. exact Hz.
Qed.
Lemma NoDup_flat_map {A B} (f : A -> list B) l : NoDup l -> (forall x, In x l -> NoDup (f x)) ->
  (forall x y z, In x l -> In y l -> In z (f x) -> In z (f y) -> x = y) -> NoDup (flat_map f l).
Proof.
  induction l as [|x l IH]; intros Hl Hf Hd; [constructor|]. cbn [flat_map]. inversion Hl as [|? ? Hx Hl']; subst.
  apply NoDup_app_intro; [apply Hf; left; reflexivity| |].
  - apply IH; [exact Hl'| |]; intros; [apply Hf; right; assumption|]. apply (Hd x0 y z); auto; right; assumption.
  - intros z Hz Hin. apply in_flat_map in Hin. destruct Hin as [y [Hy Hz']]. apply Hx. rewrite (Hd x y z); [exact Hy|left; reflexivity|right; exact Hy|exact Hz|exact Hz'].
Qed.

Lemma NoDup_map_cons {A} (y : A) l : NoDup l -> NoDup (map (cons y) l).
Proof. intro H. apply FinFun.Injective_map_NoDup; [|exact H]. intros a b E. congruence. Qed.
Lemma inserts_nodup {A} (x : A) l : ~ In x l -> NoDup (inserts x l).
Proof.
  induction l as [|y r IH]; intro H; cbn [inserts]; [constructor; [intros []|constructor]|]. constructor.
  - intro Z. apply in_map_iff in Z. destruct Z as [q [E _]]. injection E as E _. apply H. left. exact E.
  - apply NoDup_map_cons. apply IH. intro Z. apply H. right. exact Z.
Qed.
Lemma inserts_remove {A} (x : A) l l' p : ~ In x l -> ~ In x l' -> In p (inserts x l) -> In p (inserts x l') -> l = l'.
Proof.
  intros H H' Hp Hp'. apply inserts_in in Hp, Hp'. destruct Hp as [a [b [-> ->]]]. destruct Hp' as [a' [b' [-> E]]].
  revert a' H' E. induction a as [|z a IH]; intros a' H' E; destruct a' as [|z' a']; cbn in E.
  - injection E as ->. reflexivity.
  - exfalso. injection E as -> _. apply H'. left. reflexivity.
  - exfalso. injection E as -> _. apply H. left. reflexivity.
  - injection E as -> E. cbn [app]. f_equal. apply IH; [|intro Z; apply H'; right; exact Z|exact E]. intro Z. apply H. right. exact Z.
Qed.
Lemma permutations_nodup {A} (l : list A) : NoDup l -> NoDup (permutations l).
Proof.
  induction l as [|x r IH]; intro H; cbn [permutations]; [constructor; [intros []|constructor]|]. inversion H as [|? ? Hx Hr]; subst.
  assert (Hno : forall q, In q (permutations r) -> ~ In x q) by (intros q Hq Z; apply permutations_in in Hq; apply (Permutation_in _ (Permutation_sym Hq)) in Z; exact (Hx Z)).
  apply NoDup_flat_map; [exact (IH Hr)| |].
  - intros q Hq. apply inserts_nodup. apply Hno. exact Hq.
  - intros q q' p Hq Hq' Hp Hp'. apply (inserts_remove x q q' p); auto.
Qed.
Lemma inserts_length {A} (x : A) l : length (inserts x l) = S (length l).
Proof. induction l as [|y r IH]; [reflexivity|]. cbn [inserts length]. rewrite map_length, IH. reflexivity. Qed.
Lemma permutations_length {A} (l : list A) : length (permutations l) = fact (length l).
Proof.
  induction l as [|x r IH]; [reflexivity|]. cbn [permutations length]. change (fact (S (length r))) with (S (length r) * fact (length r))%nat. rewrite <- IH.
  assert (Hall : forall q, In q (permutations r) -> length q = length r) by (intros q Hq; apply permutations_in in Hq; symmetry; apply Permutation_length; exact Hq).
  clear IH. induction (permutations r) as [|q l IH]; [cbn; lia|]. cbn [flat_map length]. rewrite app_length, inserts_length, IH, (Hall q (or_introl eq_refl)); [lia|].
  intros q' Hq'. apply Hall. right. exact Hq'.
Qed.

(** ** Tuples *)
Lemma tuples_in L n f : In f (tuples L n) <-> length f = n /\ Forall (fun v => v < L) f.
Proof.
  revert f. induction n as [|n IH]; intro f; cbn [tuples].
  - split; [intros [<-|[]]; split; constructor|]. intros [H _]. left. symmetry. apply length_zero_iff_nil. exact H.
  - rewrite in_flat_map. split.
    + intros [v [Hv H]]. apply in_map_iff in H. destruct H as [g [<- H]]. apply IH in H. apply in_seq in Hv. split; [cbn; lia|]. constructor; [lia|apply H].
    + intros [Hl Hf]. destruct f as [|v f]; [discriminate|]. exists v. inversion Hf; subst. split; [apply in_seq; lia|]. apply in_map. apply IH. split; [cbn in Hl; lia|assumption].
Qed.
Lemma tuples_nodup L n : NoDup (tuples L n).
Proof.
  induction n as [|n IH]; cbn [tuples]; [constructor; [intros []|constructor]|]. apply NoDup_flat_map; [apply seq_NoDup| |].
  - intros v _. apply NoDup_map_cons. exact IH.
  - intros v v' z _ _ H H'. apply in_map_iff in H, H'. destruct H as [a [<- _]]. destruct H' as [b [E _]]. congruence.
Qed.

(** ** Valid combinations *)
Definition pickn (ch s : list nat) : list nat := map (fun j => nth j ch 0) s.
Lemma pick_app ch s s' : pickn ch (s ++ s') = pickn ch s ++ pickn ch s'.
Proof. apply map_app. Qed.
Definition extended (channels : list nat) (acc : list (list nat)) (p : nat) : list (list nat) :=
  let matching := map fst (filter (fun ic => snd ic =? p) (combine (seq 0 (length channels)) channels)) in
  flat_map (fun v => map (fun o => v ++ [o]) (filter (fun o => negb (existsb (Nat.eqb o) v)) matching)) acc.
Lemma matching_in p channels o : In o (map fst (filter (fun ic => snd ic =? p) (combine (seq 0 (length channels)) channels))) <-> o < length channels /\ nth o channels 0 = p.
Proof.
  rewrite in_map_iff. split.
  - intros [[i c] [E H]]. cbn in E. subst i. apply filter_In in H. destruct H as [H Hc]. cbn in Hc. apply Nat.eqb_eq in Hc. subst c.
    apply (In_nth _ _ (0, 0)) in H. destruct H as [k [Hk E]]. rewrite combine_length, seq_length, Nat.min_id in Hk. rewrite combine_nth in E by apply seq_length.
    rewrite seq_nth in E by exact Hk. injection E as <- E. split; [exact Hk|exact E].
  - intros [Ho E]. exists (o, p). split; [reflexivity|]. apply filter_In. split; [|cbn; apply Nat.eqb_refl].
    assert (Hn : nth o (combine (seq 0 (length channels)) channels) (0, 0) = (o, p)) by (rewrite combine_nth by apply seq_length; rewrite seq_nth by exact Ho; rewrite E; reflexivity).
    rewrite <- Hn. apply nth_In. rewrite combine_length, seq_length, Nat.min_id. exact Ho.
Qed.
Lemma matching_nodup p channels : NoDup (map fst (filter (fun ic => snd ic =? p) (combine (seq 0 (length channels)) channels))).
Proof.
  assert (H : forall k, NoDup (map fst (filter (fun ic : nat * nat => snd ic =? p) (combine (seq k (length channels)) channels))) /\
     forall o, In o (map fst (filter (fun ic : nat * nat => snd ic =? p) (combine (seq k (length channels)) channels))) -> k <= o).
  { induction channels as [|c ch IH]; intro k; [split; [constructor|intros o []]|]. cbn [length seq combine filter snd]. destruct (IH (S k)) as [H1 H2].
    destruct (c =? p); [|split; [exact H1|intros o Ho; specialize (H2 o Ho); lia]]. cbn [map fst]. split.
    - constructor; [intro Z; specialize (H2 k Z); lia|exact H1].
    - intros o [<-|Ho]; [lia|]. specialize (H2 o Ho). lia. }
  apply H.
Qed.
Lemma existsb_in o v : existsb (Nat.eqb o) v = true <-> In o v.
Proof. rewrite existsb_exists. split; [intros [x [Hx E]]; apply Nat.eqb_eq in E; subst; exact Hx|intro H; exists o; split; [exact H|apply Nat.eqb_refl]]. Qed.
Lemma extended_spec channels proj :
  NoDup (fold_left (extended channels) proj [[]]) /\
  forall s, In s (fold_left (extended channels) proj [[]]) <-> NoDup s /\ Forall (fun j => j < length channels) s /\ pickn channels s = proj.
Proof.
  induction proj as [|p proj [IH1 IH2]] using rev_ind.
  - cbn. split; [constructor; [intros []|constructor]|]. intro s. split.
    + intros [<-|[]]. repeat split; constructor.
    + intros [_ [_ H]]. left. symmetry. apply map_eq_nil in H. exact H.
  - rewrite fold_left_app. cbn [fold_left]. set (acc := fold_left (extended channels) proj [[]]) in *. split.
    + unfold extended. apply NoDup_flat_map; [exact IH1| |].
      * intros v _. apply FinFun.Injective_map_NoDup; [intros a b E; apply app_inj_tail in E; apply E|]. apply NoDup_filter. apply matching_nodup.
      * intros v v' z _ _ H H'. apply in_map_iff in H, H'. destruct H as [a [<- _]]. destruct H' as [b [E _]]. apply app_inj_tail in E. symmetry. apply E.
    + intro s. unfold extended. rewrite in_flat_map. split.
      * intros [v [Hv H]]. apply in_map_iff in H. destruct H as [o [<- H]]. apply filter_In in H. destruct H as [Ho Hno]. apply matching_in in Ho. destruct Ho as [Ho1 Ho2].
        apply IH2 in Hv. destruct Hv as [V1 [V2 V3]]. apply negb_true_iff in Hno.
        assert (Hnin : ~ In o v) by (intro Z; apply existsb_in in Z; congruence).
        split; [|split].
        -- apply NoDup_app_intro; [exact V1|constructor; [intros []|constructor]|]. intros z Hz [<-|[]]. exact (Hnin Hz).
        -- apply Forall_app. split; [exact V2|]. constructor; [exact Ho1|constructor].
        -- rewrite pick_app, V3. cbn. rewrite Ho2. reflexivity.
      * intros [H1 [H2 H3]]. destruct s as [|o v _] using rev_ind; [destruct proj; discriminate|]. rewrite pick_app in H3. cbn in H3. apply app_inj_tail in H3. destruct H3 as [H3 H4].
        apply Forall_app in H2. destruct H2 as [H2 H5]. pose proof (NoDup_remove v [] o H1) as [H6 H7]. rewrite app_nil_r in H6, H7.
        exists v. split; [apply IH2; split; [exact H6|split; [exact H2|exact H3]]|]. apply in_map_iff. exists o. split; [reflexivity|]. apply filter_In. split.
        -- apply matching_in. split; [exact (Forall_inv H5)|exact H4].
        -- apply negb_true_iff. destruct (existsb (Nat.eqb o) v) eqn:E; [|reflexivity]. apply existsb_in in E. contradiction.
Qed.
Lemma valid_combinations_extended proj channels : valid_combinations proj channels = filter (fun v => length v =? length proj) (fold_left (extended channels) proj [[]]).
Proof. reflexivity. Qed.
(** For as many photons as places: the orders of the photons that put them into their channels. *)
Lemma valid_combinations_spec proj channels : length channels = length proj ->
  Permutation (valid_combinations proj channels) (filter (fun s => leqb (pickn channels s) proj) (permutations (seq 0 (length proj)))).
Proof.
  intro Hl. destruct (extended_spec channels proj) as [H1 H2]. rewrite valid_combinations_extended. apply NoDup_Permutation.
  - apply NoDup_filter. exact H1.
  - apply NoDup_filter. apply permutations_nodup. apply seq_NoDup.
  - intro s. rewrite !filter_In, H2, permutations_in, leqb_spec. split.
    + intros [[K1 [K2 K3]] _]. split; [|exact K3]. symmetry. apply NoDup_Permutation_bis; [exact K1| |].
      * rewrite seq_length, <- K3. unfold pickn. rewrite map_length. reflexivity.
      * intros j Hj. apply in_seq. apply (proj1 (Forall_forall _ _) K2) in Hj. lia.
    + intros [K1 K2]. split; [split; [|split]|].
      * apply (Permutation_NoDup K1). apply seq_NoDup.
      * apply Forall_forall. intros j Hj. apply (Permutation_in _ (Permutation_sym K1)) in Hj. apply in_seq in Hj. lia.
      * exact K2.
      * apply Nat.eqb_eq. rewrite <- K2. unfold pickn. rewrite map_length. reflexivity.
Qed.

(** ** Orders that put photons into given channels *)
Lemma pickn_seq ch : pickn ch (seq 0 (length ch)) = ch.
Proof.
  unfold pickn. assert (H : forall k pre, length pre = k -> map (fun j => nth j (pre ++ ch) 0) (seq k (length ch)) = ch).
  { induction ch as [|c ch IH]; intros k pre Hk; [reflexivity|]. cbn [length seq map]. f_equal.
    - rewrite app_nth2 by lia. rewrite Hk, Nat.sub_diag. reflexivity.
    - specialize (IH (S k) (pre ++ [c])). rewrite <- app_assoc in IH. cbn [app] in IH. apply IH. rewrite app_length. cbn. lia. }
  apply (H 0 []). reflexivity.
Qed.
Lemma pickn_nth ch s k : k < length s -> nth k (pickn ch s) 0 = nth (nth k s 0) ch 0.
Proof.
  intro H. unfold pickn. rewrite (nth_indep (map (fun j => nth j ch 0) s) 0 ((fun j => nth j ch 0) 0)) by (rewrite map_length; exact H).
  apply (map_nth (fun j => nth j ch 0)).
Qed.
Lemma pick_permutation ch s proj n : length ch = n -> In s (permutations (seq 0 n)) -> pickn ch s = proj -> Permutation ch proj.
Proof.
  intros <- Hs <-. apply permutations_in in Hs. rewrite <- (pickn_seq ch) at 1. unfold pickn. apply Permutation_map. exact Hs.
Qed.
Lemma pick_exists ch proj : Permutation ch proj -> exists s, In s (permutations (seq 0 (length ch))) /\ pickn ch s = proj.
Proof.
  intro H. pose proof (Permutation_length H) as Hl. apply (Permutation_nth ch proj 0) in H. destruct H as [_ [f [Hb [Hi Hn]]]].
  exists (map f (seq 0 (length ch))). split.
  - apply permutations_in. symmetry. apply NoDup_Permutation_bis.
    + apply (proj2 (NoDup_nth _ 0)). intros i j Hi' Hj' E. rewrite map_length, seq_length in *.
      rewrite (nth_indep _ 0 (f 0)), (nth_indep _ 0 (f 0)) in E by (rewrite map_length, seq_length; lia). rewrite !map_nth, !seq_nth in E by lia. apply Hi in E; lia.
    + rewrite map_length. lia.
    + intros x Hx. apply in_map_iff in Hx. destruct Hx as [j [<- Hj]]. apply in_seq in Hj. apply in_seq. specialize (Hb j). lia.
  - unfold pickn. rewrite map_map. rewrite <- (pickn_seq proj). unfold pickn. rewrite <- Hl. apply map_ext_in. intros j Hj. apply in_seq in Hj. symmetry. apply Hn. lia.
Qed.

(** ** Products *)
Lemma Cprod_cons {A} (x : A) l f : Cprod (x :: l) f = (f x * Cprod l f)%C.
Proof. reflexivity. Qed.
Lemma Cprod_ext {A} (l : list A) f g : (forall x, In x l -> f x = g x) -> Cprod l f = Cprod l g.
Proof. induction l as [|x l IH]; intro H; [reflexivity|]. rewrite !Cprod_cons, (H x), IH; [reflexivity| |left; reflexivity]. intros y Hy. apply H. right. exact Hy. Qed.
Lemma Cprod_perm {A} (l l' : list A) f : Permutation l l' -> Cprod l f = Cprod l' f.
Proof. induction 1 as [|x l l' _ IH|x y l|l l' l'' _ IH1 _ IH2]; [reflexivity|rewrite !Cprod_cons, IH; reflexivity|rewrite !Cprod_cons; ring|congruence]. Qed.
Lemma Cprod_map {A B} (g : A -> B) l f : Cprod (map g l) f = Cprod l (fun x => f (g x)).
Proof. induction l as [|x l IH]; [reflexivity|]. cbn [map]. rewrite !Cprod_cons, IH. reflexivity. Qed.
Lemma Cprod_zero {A} (l : list A) f x : In x l -> f x = RtoC 0 -> Cprod l f = RtoC 0.
Proof. induction l as [|y l IH]; intro H; [destruct H|]. intro E. rewrite Cprod_cons. destruct H as [<-|H]; [rewrite E; ring|rewrite (IH H E); ring]. Qed.
Lemma Cprod_conj {A} (l : list A) f : Cconj (Cprod l f) = Cprod l (fun x => Cconj (f x)).
Proof. induction l as [|x l IH]; [cbn; apply Cconj_RtoC|]. rewrite !Cprod_cons, Cconj_mult, IH. reflexivity. Qed.

(** ** Sums over assignments of channels to photons *)
(** What a photon can do: channels with amplitudes. *)
Fixpoint assignments (ls : list (list (C * nat))) : list (C * list nat) :=
  match ls with
  | [] => [(RtoC 1, [])]
  | l :: r => flat_map (fun x => map (fun y => ((fst x * fst y)%C, snd x :: snd y)) (assignments r)) l
  end.
Definition weight_in (l : list (C * nat)) (c : nat) : C := Csum l (fun y => if snd y =? c then fst y else RtoC 0).
Lemma assignments_length ls t : In t (assignments ls) -> length (snd t) = length ls.
Proof.
  revert t. induction ls as [|l r IH]; intros t H; cbn [assignments] in H; [destruct H as [<-|[]]; reflexivity|].
  apply in_flat_map in H. destruct H as [x [_ H]]. apply in_map_iff in H. destruct H as [y [<- H]]. cbn [snd length]. f_equal. apply IH. exact H.
Qed.
Lemma leqb_cons a l b r : leqb (a :: l) (b :: r) = (a =? b) && leqb l r.
Proof.
  apply Bool.eq_iff_eq_true. rewrite andb_true_iff, !leqb_spec, Nat.eqb_eq. split; [intro H; injection H; auto|intros [-> ->]; reflexivity].
Qed.
Lemma assignments_sum ls g : length g = length ls ->
  Csum (assignments ls) (fun t => if leqb (snd t) g then fst t else RtoC 0) = Cprod (combine ls g) (fun x => weight_in (fst x) (snd x)).
Proof.
  revert g. induction ls as [|l r IH]; intros g Hl; destruct g as [|c g]; try discriminate.
  - cbn. apply C_eq; cbn; ring.
  - cbn [assignments combine]. rewrite Csum_flat_map, Cprod_cons. cbn [fst snd]. unfold weight_in at 1. rewrite <- Csum_scal_r. apply Csum_ext. intros x _.
    rewrite Csum_map. cbn [fst snd]. rewrite <- IH by (cbn in Hl; lia). rewrite <- Csum_scal_l. apply Csum_ext. intros y _. rewrite leqb_cons.
    destruct (snd x =? c); cbn [andb]; [|ring]. destruct (leqb (snd y) g); ring.
Qed.
(** The inverse of an order: a list [g] with [pickn g s = proj]. *)
Lemma unpick s proj n : In s (permutations (seq 0 n)) -> length proj = n -> exists g, length g = n /\ pickn g s = proj.
Proof.
  intros Hs Hl. apply permutations_in in Hs. pose proof (Permutation_length Hs) as Hn. rewrite seq_length in Hn.
  destruct (pick_exists s (seq 0 n)) as [u [Hu Eu]]; [symmetry; exact Hs|]. exists (pickn proj u). apply permutations_in in Hu.
  assert (Hlu : length u = n) by (apply Permutation_length in Hu; rewrite seq_length in Hu; lia).
  split; [unfold pickn; rewrite map_length; exact Hlu|].
  (* u is the inverse of s on both sides *)
  assert (Hinv : forall k, k < n -> nth (nth k s 0) u 0 = k).
  { intros k Hk. assert (Hsk : nth k s 0 < n).
    { assert (Hin : In (nth k s 0) (seq 0 n)) by (apply (Permutation_in _ (Permutation_sym Hs)); apply nth_In; lia). apply in_seq in Hin. lia. }
    assert (E : nth (nth (nth k s 0) u 0) s 0 = nth k s 0).
    { assert (Ej : forall j, j < n -> nth (nth j u 0) s 0 = j).
      { intros j Hj. rewrite <- (pickn_nth s u j) by lia.
        rewrite Eu, seq_nth by exact Hj. reflexivity. }
      apply Ej. exact Hsk. }
    assert (Hnd : NoDup s) by (apply (Permutation_NoDup Hs); apply seq_NoDup). apply (proj1 (NoDup_nth s 0) Hnd) in E; [exact E| |lia].
    assert (Hin : In (nth (nth k s 0) u 0) (seq 0 (length s))) by (apply (Permutation_in _ (Permutation_sym Hu)); apply nth_In; lia). apply in_seq in Hin. lia. }
  unfold pickn. rewrite <- (pickn_seq proj) at 1. unfold pickn. rewrite Hl.
  transitivity (map (fun k => nth (nth k s 0) (map (fun j => nth j proj 0) u) 0) (seq 0 n)).
  - rewrite <- (pickn_seq s) at 1. unfold pickn. rewrite map_map, <- Hn. reflexivity.
  - apply map_ext_in. intros k Hk. apply in_seq in Hk.
    assert (Hsk : nth k s 0 < n).
    { assert (Hin : In (nth k s 0) (seq 0 n)) by (apply (Permutation_in _ (Permutation_sym Hs)); apply nth_In; lia). apply in_seq in Hin. lia. }
    change (map (fun j => nth j proj 0) u) with (pickn proj u). rewrite pickn_nth by lia. rewrite Hinv by lia. reflexivity.
Qed.
Lemma pick_inj ch g s n : length ch = n -> length g = n -> In s (permutations (seq 0 n)) -> pickn ch s = pickn g s -> ch = g.
Proof.
  intros H1 H2 Hs E. apply permutations_in in Hs. apply (nth_ext _ _ 0 0); [lia|]. intros j Hj.
  assert (Hin : In j s) by (apply (Permutation_in _ Hs); apply in_seq; lia). apply (ext_in_map E). exact Hin.
Qed.
Lemma Cprod_combine_seq {A} (d : A) (ls : list A) (g : list nat) (f : A -> nat -> C) : length g = length ls ->
  Cprod (combine ls g) (fun x => f (fst x) (snd x)) = Cprod (seq 0 (length ls)) (fun j => f (nth j ls d) (nth j g 0)).
Proof.
  revert g. induction ls as [|l r IH]; intros g Hl; destruct g as [|c g]; try discriminate; [reflexivity|]. cbn [combine length seq]. rewrite !Cprod_cons. cbn [fst snd nth].
  rewrite IH by (cbn in Hl; lia). rewrite <- seq_shift, Cprod_map. reflexivity.
Qed.
Lemma assignments_order ls s proj : length proj = length ls -> In s (permutations (seq 0 (length ls))) ->
  Csum (assignments ls) (fun t => if leqb (pickn (snd t) s) proj then fst t else RtoC 0)
  = Cprod (combine s proj) (fun x => weight_in (nth (fst x) ls []) (snd x)).
Proof.
  intros Hl Hs. destruct (unpick s proj (length ls) Hs Hl) as [g [Hg E]].
  transitivity (Csum (assignments ls) (fun t => if leqb (snd t) g then fst t else RtoC 0)).
  - apply Csum_ext. intros t Ht. pose proof (assignments_length ls t Ht) as Hlt.
    assert (Heq : leqb (pickn (snd t) s) proj = leqb (snd t) g).
    { apply Bool.eq_iff_eq_true. rewrite !leqb_spec, <- E. split; [apply (pick_inj _ _ s (length ls)); assumption|intros ->; reflexivity]. }
    rewrite Heq. reflexivity.
  - rewrite assignments_sum by exact Hg. rewrite (Cprod_combine_seq (@nil (C * nat)) ls g (fun l c => weight_in l c)) by exact Hg.
    assert (Hp := proj1 (permutations_in _ _) Hs). rewrite (Cprod_perm _ _ _ Hp). rewrite <- E. unfold pickn. clear. induction s as [|j s IH]; [reflexivity|].
    cbn [map combine]. rewrite !Cprod_cons, IH. reflexivity.
Qed.
