(** Specification vocabulary for states. *)
From Coq Require Import Reals List Arith Bool.
From Coquelicot Require Import Complex.
From Verif Require Import Prelude NamesModel NamesSpec FockModel FockSpec StateModel.
Import ListNotations.

(** The amplitude a state gives to a component name; absent components have amplitude 0. *)
Definition amplitude (st : state) (nm : name) : C :=
  match dget leqb nm (s_comps st) with Some ap => fst ap | None => RtoC 0 end.

(** The amplitude a state gives to a tuple of photon numbers. *)
Definition amp_of (D : dims) (st : state) (vs : values) : C := amplitude st (name_string D vs).

(** A well-formed state of a circuit of shape [D]: its components are a dictionary whose
    keys are names of existing photon-number tuples. *)
Definition wf_state (D : dims) (st : state) : Prop :=
  NoDup (map fst (s_comps st)) /\
  forall nm, In nm (map fst (s_comps st)) -> exists vs, valid D vs /\ nm = name_string D vs.

(** The stored probabilities are the squared moduli of the amplitudes. *)
Definition probs_ok (st : state) : Prop :=
  forall nm a p, In (nm, (a, p)) (s_comps st) -> p = Cnorm2 a.

(** Squared norm: the sum of the squared moduli of the amplitudes. *)
Definition state_norm2 (st : state) : R := Rsum (s_comps st) (fun c => Cnorm2 (fst (snd c))).

(** All keys of [st'] except the optical components are those of [st]. *)
Definition same_but_components (st st' : state) : Prop :=
  s_init st' = s_init st /\ s_cum st' = s_cum st /\ s_classical st' = s_classical st /\
  s_results st' = s_results st /\ s_aux st' = s_aux st.

(** Every component of the state has a photon number among those selected. *)
Definition selects (D : dims) (sel : selection) (vs : values) : Prop :=
  match sel with
  | SelAll => True
  | SelEq k => photons vs = k
  | SelLe k => photons vs <= k
  end.
