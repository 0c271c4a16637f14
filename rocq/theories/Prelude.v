(** General-purpose facts used by the whole development: finite sums of complex
    and real numbers over lists, integer powers of complex numbers and
    insertion-ordered dictionaries. Nothing in this file models code of /repo
    except [dget]/[dset]/[ddel], which model Python's built-in [dict]. *)
From Coq Require Import Reals List Arith Lia Lra Bool Permutation.
From Coquelicot Require Import Complex.
Import ListNotations.
Open Scope nat_scope.

(** * Complex helpers *)

(** [z ** n] for complex [z] and natural [n] (Python: [0 ** 0 == 1]). *)
Fixpoint Cpow (z : C) (n : nat) : C :=
  match n with O => RtoC 1 | S k => (z * Cpow z k)%C end.

(** [np.abs(z)**2]. *)
Definition Cnorm2 (z : C) : R := (fst z * fst z + snd z * snd z)%R.

(** Embedding of naturals. *)
Definition INC (n : nat) : C := RtoC (INR n).

(** Finite sums. *)
Definition Csum {A : Type} (l : list A) (f : A -> C) : C :=
  fold_right (fun x acc => (f x + acc)%C) (RtoC 0) l.

Definition Rsum {A : Type} (l : list A) (f : A -> R) : R :=
  fold_right (fun x acc => (f x + acc)%R) 0%R l.

(** * Python dictionaries: association lists in insertion order *)
Section Dict.
  Context {K V : Type} (keq : K -> K -> bool).

  Fixpoint dget (k : K) (d : list (K * V)) : option V :=
    match d with
    | [] => None
    | (k', v) :: r => if keq k k' then Some v else dget k r
    end.

  (** [d.update({k: v})] / [d[k] = v]: the position of an existing key is kept. *)
  Fixpoint dset (k : K) (v : V) (d : list (K * V)) : list (K * V) :=
    match d with
    | [] => [(k, v)]
    | (k', v') :: r => if keq k k' then (k', v) :: r else (k', v') :: dset k v r
    end.

  (** [del d[k]] (no-op if absent; callers check presence). *)
  Definition ddel (k : K) (d : list (K * V)) : list (K * V) :=
    filter (fun kv => negb (keq k (fst kv))) d.

  Definition dmem (k : K) (d : list (K * V)) : bool :=
    match dget k d with Some _ => true | None => false end.

  Definition dkeys (d : list (K * V)) : list K := map fst d.
  Definition dvals (d : list (K * V)) : list V := map snd d.

  (** [{k: v for k, v in l}]. *)
  Definition dict_of (l : list (K * V)) : list (K * V) :=
    fold_left (fun d kv => dset (fst kv) (snd kv) d) l [].
End Dict.

(** * Lemmas *)

Lemma C_eq : forall a b : C, fst a = fst b -> snd a = snd b -> a = b.
Proof. intros [] [] H1 H2; simpl in *; congruence. Qed.

Ltac Ceq := apply C_eq; simpl; ring.

Lemma Csum_nil {A} (f : A -> C) : Csum [] f = RtoC 0.
Proof. reflexivity. Qed.
Lemma Csum_cons {A} (x : A) l f : Csum (x :: l) f = (f x + Csum l f)%C.
Proof. reflexivity. Qed.

Lemma Csum_app {A} (l1 l2 : list A) f : Csum (l1 ++ l2) f = (Csum l1 f + Csum l2 f)%C.
Proof.
  induction l1 as [|x l1 IH].
  - cbn [app]. rewrite Csum_nil. ring.
  - cbn [app]. rewrite !Csum_cons, IH. ring.
Qed.

Lemma Csum_ext {A} (l : list A) f g :
  (forall x, In x l -> f x = g x) -> Csum l f = Csum l g.
Proof.
  induction l as [|x l IH]; intros H; [reflexivity|].
  rewrite !Csum_cons, (H x), IH; auto using in_eq, in_cons.
Qed.

Lemma Csum_plus {A} (l : list A) f g :
  Csum l (fun x => f x + g x)%C = (Csum l f + Csum l g)%C.
Proof.
  induction l as [|x l IH]. { rewrite !Csum_nil; ring. }
  rewrite !Csum_cons, IH. ring.
Qed.

Lemma Csum_scal_l {A} (l : list A) c f :
  Csum l (fun x => c * f x)%C = (c * Csum l f)%C.
Proof.
  induction l as [|x l IH]. { rewrite !Csum_nil; ring. }
  rewrite !Csum_cons, IH. ring.
Qed.

Lemma Csum_scal_r {A} (l : list A) c f :
  Csum l (fun x => f x * c)%C = (Csum l f * c)%C.
Proof.
  induction l as [|x l IH]. { rewrite !Csum_nil; ring. }
  rewrite !Csum_cons, IH. ring.
Qed.

Lemma Csum_zero {A} (l : list A) f :
  (forall x, In x l -> f x = RtoC 0) -> Csum l f = RtoC 0.
Proof.
  induction l as [|x l IH]; intros H; [reflexivity|].
  rewrite Csum_cons, (H x), IH; auto using in_eq, in_cons. ring.
Qed.

Lemma Csum_swap {A B} (l : list A) (m : list B) f :
  Csum l (fun x => Csum m (fun y => f x y)) = Csum m (fun y => Csum l (fun x => f x y)).
Proof.
  induction l as [|x l IH].
  - rewrite Csum_nil. symmetry. apply Csum_zero. reflexivity.
  - rewrite Csum_cons, IH, <- Csum_plus. apply Csum_ext. intros; now rewrite Csum_cons.
Qed.

Lemma Csum_map {A B} (g : A -> B) (l : list A) f :
  Csum (map g l) f = Csum l (fun x => f (g x)).
Proof. induction l as [|x l IH]; [reflexivity|]. cbn [map]. now rewrite !Csum_cons, IH. Qed.

Lemma Csum_flat_map {A B} (g : A -> list B) (l : list A) f :
  Csum (flat_map g l) f = Csum l (fun x => Csum (g x) f).
Proof.
  induction l as [|x l IH]; [reflexivity|]. cbn [flat_map].
  now rewrite Csum_app, Csum_cons, IH.
Qed.

Lemma Csum_filter {A} (p : A -> bool) (l : list A) f :
  Csum (filter p l) f = Csum l (fun x => if p x then f x else RtoC 0).
Proof.
  induction l as [|x l IH]; [reflexivity|]. cbn [filter]. rewrite Csum_cons.
  destruct (p x); [rewrite Csum_cons|]; rewrite IH; ring.
Qed.

Lemma Csum_perm {A} (l l' : list A) f : Permutation l l' -> Csum l f = Csum l' f.
Proof.
  induction 1.
  - reflexivity.
  - now rewrite !Csum_cons, IHPermutation.
  - rewrite !Csum_cons. ring.
  - congruence.
Qed.

Lemma Csum_single {A} (l : list A) (x0 : A) f :
  NoDup l -> In x0 l -> (forall x, In x l -> x <> x0 -> f x = RtoC 0) ->
  Csum l f = f x0.
Proof.
  induction l as [|x l IH]; intros ND Hin H; [destruct Hin|].
  inversion ND as [|? ? Hnin ND']; subst.
  rewrite Csum_cons. destruct Hin as [->|Hin].
  - rewrite Csum_zero. { ring. }
    intros y Hy. apply H; [now right|]. intros ->; contradiction.
  - rewrite IH; auto.
    + rewrite (H x); [ring|now left|]. intros ->; contradiction.
    + intros y Hy; apply H; now right.
Qed.

Lemma Csum_conj {A} (l : list A) f : Cconj (Csum l f) = Csum l (fun x => Cconj (f x)).
Proof.
  induction l as [|x l IH]. { apply C_eq; simpl; ring. }
  rewrite !Csum_cons, <- IH. apply C_eq; simpl; ring.
Qed.

Lemma Csum_seq_S n f : Csum (seq 0 (S n)) f = (Csum (seq 0 n) f + f n)%C.
Proof. rewrite seq_S, Csum_app, Csum_cons, Csum_nil. simpl. ring. Qed.

Lemma Csum_seq_shift s n f : Csum (seq (S s) n) f = Csum (seq s n) (fun i => f (S i)).
Proof. rewrite <- seq_shift, Csum_map. reflexivity. Qed.

Lemma Csum_seq_S_l n f : Csum (seq 0 (S n)) f = (f 0 + Csum (seq 0 n) (fun i => f (S i)))%C.
Proof. cbn [seq]. now rewrite Csum_cons, Csum_seq_shift. Qed.

(** Extending the range of a sum by zero terms. *)
Lemma Csum_seq_extend n m f :
  n <= m -> (forall i, n <= i < m -> f i = RtoC 0) ->
  Csum (seq 0 m) f = Csum (seq 0 n) f.
Proof.
  intros Hnm H. replace m with (n + (m - n)) by lia.
  rewrite seq_app, Csum_app. rewrite (Csum_zero (seq (0 + n) (m - n))).
  - ring.
  - intros i Hi. apply in_seq in Hi. apply H. lia.
Qed.

(** * Real sums *)
Lemma Rsum_cons {A} (x : A) l f : Rsum (x :: l) f = (f x + Rsum l f)%R.
Proof. reflexivity. Qed.
Lemma Rsum_app {A} (l1 l2 : list A) f : Rsum (l1 ++ l2) f = (Rsum l1 f + Rsum l2 f)%R.
Proof.
  induction l1 as [|x l1 IH]; cbn [app]; [simpl; ring|].
  rewrite !Rsum_cons, IH. ring.
Qed.
Lemma Rsum_ext {A} (l : list A) f g :
  (forall x, In x l -> f x = g x) -> Rsum l f = Rsum l g.
Proof.
  induction l as [|x l IH]; intros H; [reflexivity|].
  rewrite !Rsum_cons, (H x), IH; auto using in_eq, in_cons.
Qed.
Lemma Rsum_plus {A} (l : list A) f g :
  Rsum l (fun x => f x + g x)%R = (Rsum l f + Rsum l g)%R.
Proof.
  induction l as [|x l IH]; [simpl; ring|]. rewrite !Rsum_cons, IH. ring.
Qed.
Lemma Rsum_scal_l {A} (l : list A) c f :
  Rsum l (fun x => c * f x)%R = (c * Rsum l f)%R.
Proof.
  induction l as [|x l IH]; [simpl; ring|]. rewrite !Rsum_cons, IH. ring.
Qed.
Lemma Rsum_zero {A} (l : list A) f :
  (forall x, In x l -> f x = 0%R) -> Rsum l f = 0%R.
Proof.
  induction l as [|x l IH]; intros H; [reflexivity|].
  rewrite Rsum_cons, (H x), IH; auto using in_eq, in_cons. ring.
Qed.
Lemma Rsum_swap {A B} (l : list A) (m : list B) f :
  Rsum l (fun x => Rsum m (fun y => f x y)) = Rsum m (fun y => Rsum l (fun x => f x y)).
Proof.
  induction l as [|x l IH].
  - symmetry. apply Rsum_zero. reflexivity.
  - rewrite Rsum_cons, IH, <- Rsum_plus. apply Rsum_ext. intros; now rewrite Rsum_cons.
Qed.
Lemma Rsum_map {A B} (g : A -> B) (l : list A) f :
  Rsum (map g l) f = Rsum l (fun x => f (g x)).
Proof. induction l as [|x l IH]; [reflexivity|]. cbn [map]. now rewrite !Rsum_cons, IH. Qed.
Lemma Rsum_flat_map {A B} (g : A -> list B) (l : list A) f :
  Rsum (flat_map g l) f = Rsum l (fun x => Rsum (g x) f).
Proof.
  induction l as [|x l IH]; [reflexivity|]. cbn [flat_map].
  now rewrite Rsum_app, Rsum_cons, IH.
Qed.
Lemma Rsum_filter {A} (p : A -> bool) (l : list A) f :
  Rsum (filter p l) f = Rsum l (fun x => if p x then f x else 0%R).
Proof.
  induction l as [|x l IH]; [reflexivity|]. cbn [filter]. rewrite Rsum_cons.
  destruct (p x); [rewrite Rsum_cons|]; rewrite IH; ring.
Qed.
Lemma Rsum_nonneg {A} (l : list A) f :
  (forall x, In x l -> 0 <= f x)%R -> (0 <= Rsum l f)%R.
Proof.
  induction l as [|x l IH]; intros H; [simpl; lra|].
  rewrite Rsum_cons. specialize (H x (in_eq _ _)) as Hx.
  assert (0 <= Rsum l f)%R by (apply IH; intros; apply H; now right). lra.
Qed.
Lemma Rsum_perm {A} (l l' : list A) f : Permutation l l' -> Rsum l f = Rsum l' f.
Proof.
  induction 1.
  - reflexivity.
  - now rewrite !Rsum_cons, IHPermutation.
  - rewrite !Rsum_cons. ring.
  - congruence.
Qed.
Lemma Rsum_single {A} (l : list A) (x0 : A) f :
  NoDup l -> In x0 l -> (forall x, In x l -> x <> x0 -> f x = 0%R) ->
  Rsum l f = f x0.
Proof.
  induction l as [|x l IH]; intros ND Hin H; [destruct Hin|].
  inversion ND as [|? ? Hnin ND']; subst.
  rewrite Rsum_cons. destruct Hin as [->|Hin].
  - rewrite Rsum_zero. { ring. }
    intros y Hy. apply H; [now right|]. intros ->; contradiction.
  - rewrite IH; auto.
    + rewrite (H x); [ring|now left|]. intros ->; contradiction.
    + intros y Hy; apply H; now right.
Qed.

(** * Norms *)
Lemma Cnorm2_nonneg z : (0 <= Cnorm2 z)%R.
Proof.
  unfold Cnorm2. pose proof (Rle_0_sqr (fst z)). pose proof (Rle_0_sqr (snd z)).
  unfold Rsqr in *. lra.
Qed.
Lemma Cnorm2_mult a b : Cnorm2 (a * b)%C = (Cnorm2 a * Cnorm2 b)%R.
Proof. unfold Cnorm2; simpl; ring. Qed.
Lemma Cnorm2_conj a : Cnorm2 (Cconj a) = Cnorm2 a.
Proof. unfold Cnorm2; simpl; ring. Qed.
Lemma Cnorm2_zero : Cnorm2 (RtoC 0) = 0%R.
Proof. unfold Cnorm2; simpl; ring. Qed.
Lemma Cnorm2_RtoC r : Cnorm2 (RtoC r) = (r * r)%R.
Proof. unfold Cnorm2; simpl; ring. Qed.
Lemma Cnorm2_eq0 z : Cnorm2 z = 0%R -> z = RtoC 0.
Proof.
  unfold Cnorm2; intros H.
  pose proof (Rle_0_sqr (fst z)). pose proof (Rle_0_sqr (snd z)). unfold Rsqr in *.
  apply C_eq; simpl; apply Rsqr_0_uniq; unfold Rsqr; lra.
Qed.
Lemma Cconj_mult_norm2 z : (Cconj z * z)%C = RtoC (Cnorm2 z).
Proof. unfold Cnorm2; Ceq. Qed.
Lemma Cconj_mult a b : Cconj (a * b)%C = (Cconj a * Cconj b)%C.
Proof. Ceq. Qed.
Lemma Cconj_plus a b : Cconj (a + b)%C = (Cconj a + Cconj b)%C.
Proof. Ceq. Qed.
Lemma Cconj_invol a : Cconj (Cconj a) = a.
Proof. Ceq. Qed.
Lemma Cconj_RtoC r : Cconj (RtoC r) = RtoC r.
Proof. Ceq. Qed.

Lemma Csum_RtoC {A} (l : list A) f : Csum l (fun x => RtoC (f x)) = RtoC (Rsum l f).
Proof.
  induction l as [|x l IH]; [reflexivity|].
  rewrite Csum_cons, IH, Rsum_cons. Ceq.
Qed.

(** * Powers *)
Lemma Cpow_add z a b : Cpow z (a + b) = (Cpow z a * Cpow z b)%C.
Proof. induction a; cbn [Cpow Nat.add]; [ring|]. rewrite IHa. ring. Qed.
Lemma Cpow_conj z n : Cconj (Cpow z n) = Cpow (Cconj z) n.
Proof. induction n; cbn [Cpow]; [apply Cconj_RtoC|]. now rewrite Cconj_mult, IHn. Qed.
Lemma Cpow_mult a b n : Cpow (a * b)%C n = (Cpow a n * Cpow b n)%C.
Proof. induction n; cbn [Cpow]; [ring|]. rewrite IHn. ring. Qed.
Lemma Cpow_1 n : Cpow (RtoC 1) n = RtoC 1.
Proof. induction n; cbn [Cpow]; [reflexivity|]. rewrite IHn. ring. Qed.
Lemma Cpow_0 n : 0 < n -> Cpow (RtoC 0) n = RtoC 0.
Proof. destruct n; [lia|]. intros _. cbn [Cpow]. ring. Qed.

Lemma INC_add a b : INC (a + b) = (INC a + INC b)%C.
Proof. unfold INC. rewrite plus_INR. Ceq. Qed.
Lemma INC_mult a b : INC (a * b) = (INC a * INC b)%C.
Proof. unfold INC. rewrite mult_INR. Ceq. Qed.
Lemma INC_0 : INC 0 = RtoC 0. Proof. reflexivity. Qed.
Lemma INC_1 : INC 1 = RtoC 1. Proof. reflexivity. Qed.

(** * Dictionaries *)
Section DictLemmas.
  Context {K V : Type} (keq : K -> K -> bool).
  Hypothesis keq_spec : forall a b, keq a b = true <-> a = b.

  Lemma keq_refl a : keq a a = true.
  Proof. now apply keq_spec. Qed.
  Lemma keq_neq a b : a <> b -> keq a b = false.
  Proof. intros H. destruct (keq a b) eqn:E; auto. apply keq_spec in E. contradiction. Qed.

  Lemma dget_dset_same k (v : V) d : dget keq k (dset keq k v d) = Some v.
  Proof.
    induction d as [|[k' v'] r IH]; simpl; [now rewrite keq_refl|].
    destruct (keq k k') eqn:E; simpl; rewrite E; auto.
  Qed.
  Lemma dget_dset_other k k2 (v : V) d : k2 <> k -> dget keq k2 (dset keq k v d) = dget keq k2 d.
  Proof.
    intros Hne. induction d as [|[k' v'] r IH]; simpl.
    - now rewrite (keq_neq k2 k).
    - destruct (keq k k') eqn:E; simpl.
      + apply keq_spec in E; subst. now rewrite (keq_neq k2 k').
      + now rewrite IH.
  Qed.
  Lemma dget_none_iff k (d : list (K * V)) : dget keq k d = None <-> ~ In k (dkeys d).
  Proof.
    induction d as [|[k' v'] r IH]; simpl; [tauto|].
    destruct (keq k k') eqn:E.
    - apply keq_spec in E; subst. split; [discriminate|]. intros H; exfalso; apply H; now left.
    - rewrite IH. split; intros H; [|tauto]. intros [->|Hin]; [|tauto].
      rewrite keq_refl in E. discriminate.
  Qed.
  Lemma dget_some_in k (v : V) d : dget keq k d = Some v -> In (k, v) d.
  Proof.
    induction d as [|[k' v'] r IH]; simpl; [discriminate|].
    destruct (keq k k') eqn:E.
    - apply keq_spec in E; subst. intros [= ->]. now left.
    - right; auto.
  Qed.
  Lemma dget_in k (v : V) d : NoDup (dkeys d) -> In (k, v) d -> dget keq k d = Some v.
  Proof.
    induction d as [|[k' v'] r IH]; simpl; intros ND Hin; [tauto|].
    inversion ND; subst. destruct Hin as [[= -> ->]|Hin].
    - now rewrite keq_refl.
    - rewrite keq_neq; auto. intros ->. apply H1. unfold dkeys. apply in_map_iff. exists (k', v); auto.
  Qed.
  Lemma dset_fresh k (v : V) d : ~ In k (dkeys d) -> dset keq k v d = d ++ [(k, v)].
  Proof.
    induction d as [|[k' v'] r IH]; simpl; intros H; [reflexivity|].
    rewrite keq_neq; [|intuition congruence]. rewrite IH; auto.
  Qed.
  Lemma dkeys_dset k (v : V) d :
    dkeys (dset keq k v d) = if dmem keq k d then dkeys d else dkeys d ++ [k].
  Proof.
    unfold dmem. induction d as [|[k' v'] r IH]; simpl; [reflexivity|].
    destruct (keq k k') eqn:E; simpl; [reflexivity|].
    rewrite IH. destruct (dget keq k r); reflexivity.
  Qed.
  Lemma dset_NoDup k (v : V) d : NoDup (dkeys d) -> NoDup (dkeys (dset keq k v d)).
  Proof.
    intros ND. rewrite dkeys_dset. unfold dmem. destruct (dget keq k d) eqn:E; auto.
    apply dget_none_iff in E.
    apply Permutation_NoDup with (k :: dkeys d).
    - apply Permutation_cons_append.
    - now constructor.
  Qed.
  Lemma in_dset k (v : V) d k2 v2 :
    In (k2, v2) (dset keq k v d) -> (k2 = k /\ v2 = v) \/ In (k2, v2) d.
  Proof.
    induction d as [|[k' v'] r IH]; simpl.
    - intros [[= <- <-]|[]]. now left.
    - destruct (keq k k') eqn:E; simpl.
      + apply keq_spec in E; subst. intros [[= <- <-]|H]; [now left|]. right; now right.
      + intros [[= <- <-]|H]; [right; now left|]. destruct (IH H); auto.
  Qed.

  Lemma dict_of_acc_nodup (l : list (K * V)) d0 :
    NoDup (dkeys d0 ++ map fst l) ->
    fold_left (fun d kv => dset keq (fst kv) (snd kv) d) l d0 = d0 ++ l.
  Proof.
    revert d0. induction l as [|[k v] l IH]; simpl; intros d0 ND.
    - now rewrite app_nil_r.
    - rewrite dset_fresh.
      + rewrite IH.
        * rewrite <- app_assoc. reflexivity.
        * unfold dkeys in *. rewrite map_app. simpl. rewrite <- app_assoc. exact ND.
      + intros Hin. apply NoDup_remove_2 in ND. apply ND. apply in_or_app. now left.
  Qed.
  Lemma dict_of_nodup (l : list (K * V)) : NoDup (map fst l) -> dict_of keq l = l.
  Proof. intros H. unfold dict_of. rewrite dict_of_acc_nodup; auto. Qed.
End DictLemmas.

(** Boolean equality on lists of naturals (names and tuples). *)
Fixpoint leqb (a b : list nat) : bool :=
  match a, b with
  | [], [] => true
  | x :: a', y :: b' => Nat.eqb x y && leqb a' b'
  | _, _ => false
  end.
Lemma leqb_spec a b : leqb a b = true <-> a = b.
Proof.
  revert b; induction a as [|x a IH]; intros [|y b]; simpl; try (split; congruence).
  rewrite andb_true_iff, Nat.eqb_eq, IH. split; [intros [-> ->]; auto|intros [= -> ->]; auto].
Qed.
