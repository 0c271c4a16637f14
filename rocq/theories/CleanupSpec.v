(** Specification vocabulary for clean_up. *)
From Coq Require Import Reals List Arith Bool.
From Coquelicot Require Import Complex.
From Verif Require Import Prelude NamesModel NamesSpec FockModel StateModel StateSpec CollectionModel CollectionSpec.
Import ListNotations.

(** Component by component, [x] and [y] differ by less than [eps] in probability and in the
    squared modulus of the amplitude difference; every component of [x] exists in [y]. *)
Definition nearly_equal (eps : R) (x y : list (name * (C * R))) : Prop :=
  forall nm a p, In (nm, (a, p)) x -> exists b q, In (nm, (b, q)) y /\
    (Rabs (p - q) < eps)%R /\ (Cnorm2 (a - b)%C < eps)%R.

(** [y] is [x] without the components of probability below [eps] (they are dropped or set to
    zero), the others multiplied by one positive factor: 1 if the remaining norm is within [eps]
    of 1, otherwise the factor that makes the norm 1. *)
Definition remaining_norm (eps : R) (x : list (name * (C * R))) : R :=
  Rsum x (fun c => if Rlt_dec (snd (snd c)) eps then 0%R else Cnorm2 (fst (snd c))).
Definition rescaled (eps : R) (x y : list (name * (C * R))) : Prop :=
  exists k : R, (0 < k)%R /\
    (k = 1%R /\ (Rabs (remaining_norm eps x - 1) < eps)%R \/ (k * k * remaining_norm eps x)%R = 1%R) /\
    (forall nm b q, In (nm, (b, q)) y -> exists a p, In (nm, (a, p)) x /\
       ((eps <= p)%R /\ b = (RtoC k * a)%C \/ (p < eps)%R /\ b = RtoC 0)) /\
    (forall nm a p, In (nm, (a, p)) x -> (eps <= p)%R -> (eps <= k * k * Cnorm2 a)%R -> exists q, In (nm, ((RtoC k * a)%C, q)) y).

(** The summed weight of the states that [rep] sends to [i]. *)
Definition group_weight (rep : ident -> ident) (its : items) (i : ident) : R :=
  Rsum its (fun j => if leqb (rep (fst j)) i then s_cum (snd j) else 0%R).

(** [its'] is [its] where, for the labels in [labels], the states have been merged according to
    [rep]: the state [rep i] absorbs the weight of the state [i]. Groups of total weight below
    [eps] disappear. Other labels are untouched. *)
Record merged (eps : R) (labels : list ident) (rep : ident -> ident) (its its' : items) : Prop := {
  mg_order : exists keep : ident -> bool, map fst its' = filter keep (map fst its);
  mg_other : forall i st, lookup its i = Some st -> ~ In (s_init st) labels ->
    rep i = i /\ lookup its' i = Some st;
  mg_rep : forall i st, lookup its i = Some st -> In (s_init st) labels ->
    rep (rep i) = rep i /\
    exists lst, lookup its (rep i) = Some lst /\ s_init lst = s_init st /\
      (rep i = i \/ exists oc olc, rescaled eps (s_comps st) oc /\ rescaled eps (s_comps lst) olc /\ nearly_equal eps oc olc);
  mg_leader : forall i st, lookup its i = Some st -> In (s_init st) labels -> rep i = i ->
    (eps <= group_weight rep its i)%R ->
    (0 <= group_weight rep its i <= 1)%R /\
    exists oc, rescaled eps (s_comps st) oc /\ lookup its' i = Some (with_cum (with_comps st oc) (group_weight rep its i));
  mg_small : forall i st, lookup its i = Some st -> In (s_init st) labels -> rep i = i ->
    (group_weight rep its i < eps)%R -> lookup its' i = None;
  mg_gone : forall i st, lookup its i = Some st -> In (s_init st) labels -> rep i <> i -> lookup its' i = None;
  mg_new : forall i, lookup its i = None -> lookup its' i = None }.
