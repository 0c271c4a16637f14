(** Creating, changing and comparing states; loading collections from dictionaries.
    Models state.py:119-262, 337-370, 501-530 and collection_of_states.py:274-336, 392-402, 497-533. *)
From Coq Require Import Reals List Arith Bool.
From Coquelicot Require Import Complex.
From Verif Require Import Prelude NamesModel FockModel StateModel CollectionModel.
Import ListNotations.

(** [name in self._dict_of_valid_component_names], optical_values_component_names.py:243-246.
    The name tables are the translation itself (C04). *)
Definition known_name (D : dims) (nm : name) : bool := contains_values D (values_of_name D nm).

(** ** Setters *)

(** The optical_components setter with a list of (name, amplitude), state.py:210-226. None: exception. *)
Definition superpose_step (D : dims) (acc : option (list (name * (C * R)))) (na : name * C) :
  option (list (name * (C * R))) :=
  match acc with
  | None => None
  | Some d =>
      if known_name D (fst na) then
        match dget leqb (fst na) d with
        | None => Some (dset leqb (fst na) (snd na, Cnorm2 (snd na)) d)
        | Some ap => let a := (fst ap + snd na)%C in Some (dset leqb (fst na) (a, Cnorm2 a) d)
        end
      else None
  end.
(** state.py:204-228. *)
Definition set_components_list (D : dims) (l : list (name * C)) (st : state) : option state :=
  option_map (with_comps st) (fold_left (superpose_step D) l (Some [])).

(** A dictionary {name: {'amplitude': .., 'probability': ..}} as the user writes it: the inner
    dictionaries may lack either key. Entries with other keys are not modelled. *)
(** state.py:204-209. *)
Definition raw_components := list (name * (option C * option R)).
(** The dictionary if all entries are complete. *)
(** state.py:205-209 and 405-411. *)
Fixpoint complete (l : raw_components) : option (list (name * (C * R))) :=
  match l with
  | [] => Some []
  | (nm, (Some a, Some p)) :: r => option_map (cons (nm, (a, p))) (complete r)
  | _ :: _ => None
  end.
(** The optical_components setter with a dictionary, state.py:205-209. *)
Definition set_components_dict (D : dims) (l : raw_components) (st : state) : option state :=
  if forallb (fun e => known_name D (fst e)) l then option_map (with_comps st) (complete l) else None.

(** The classical_channel_values setter, state.py:235-241. *)
Definition set_classical_values (ncl : nat) (l : list R) (st : state) : option state :=
  if length l =? ncl then Some (with_classical st l) else None.

(** ** The constructor with a dictionary *)

(** input_state_as_a_dict: every key may be absent. Unknown keys are ignored (state.py:172-174). *)
Record state_dict := SDict {
  d_init : option ident;
  d_cum : option R;
  d_comps : option raw_components;
  d_classical : option (list R);
  d_results : option (list (list R * R));
  d_aux : option (list (auxkey * auxval)) }.

(** state.py:160-178. *)
Definition or_default {A} (o : option A) (d : A) : A := match o with Some x => x | None => d end.

(** State(collection, dictionary), state.py:119-178: the given keys replace those of the
    initialised state; None: exception 'invalid state' (an incomplete component fails in
    _check_valid_state, state.py:405-411). The component names are not checked. *)
Definition state_from_dict (D : dims) (eps : R) (ncl : nat) (d : state_dict) : option state :=
  let st0 := initialized_state D ncl in
  match (match d_comps d with None => Some (s_comps st0) | Some raw => complete raw end) with
  | None => None
  | Some comps =>
      make_state eps ncl
        (State (or_default (d_init d) (s_init st0)) (or_default (d_cum d) (s_cum st0)) comps
               (or_default (d_classical d) (s_classical st0)) (or_default (d_results d) (s_results st0))
               (or_default (d_aux d) (s_aux st0)))
  end.

(** State.__bool__, state.py:337-346. *)
Definition state_bool (eps : R) (ncl : nat) (st : state) : bool := check_state eps ncl st.

(** ** Comparison *)

(** State.__int__, state.py:352-354. *)
Definition state_int (D : dims) (st : state) : option nat := option_map fst (photon_number D st).
(** state == number, state.py:348-350. None: exception. *)
Definition equals_number (D : dims) (st : state) (n : nat) : option bool := option_map (Nat.eqb n) (state_int D st).
(** state == other: int(state) is computed, then other.__eq__(int(state)) is called (Python asks the
    left operand of number == self.__int__() first; here this is the other state). *)
(** state.py:348-354. *)
Definition equals_state (D1 : dims) (st1 : state) (D2 : dims) (st2 : state) : option bool :=
  match state_int D1 st1 with
  | None => None
  | Some n => equals_number D2 st2 n
  end.

(** ** Collections from dictionaries *)

(** A key of a Python dictionary: a string or something else. *)
(** collection_of_states.py:517-533. *)
Inductive pykey := KStr (i : ident) | KOther (n : nat).
(** A value: a State of this circuit, a dictionary describing one, or something else. *)
(** collection_of_states.py:517-533. *)
Inductive entry := EState (st : state) | EDict (d : state_dict) | EOther.
(** Equality of keys, collection_of_states.py:322-335. *)
Definition pykey_eqb (a b : pykey) : bool :=
  match a, b with
  | KStr i, KStr j => leqb i j
  | KOther n, KOther m => n =? m
  | _, _ => false
  end.

(** __check_valid_dictionary, collection_of_states.py:517-533: Python reads the condition as
    (not type(identifier) == str) and isinstance(state, State) and bool(state). *)
Definition check_dictionary (eps : R) (ncl : nat) (l : list (pykey * entry)) : bool :=
  forallb (fun ke => negb (match fst ke with KStr _ => false | KOther _ => true end &&
                           match snd ke with EState st => state_bool eps ncl st | _ => false end)) l.

(** collection_from_dict, lines 497-506: the dictionary becomes the content. *)
Definition collection_from_dict (eps : R) (ncl : nat) (l old : list (pykey * entry)) : list (pykey * entry) :=
  if check_dictionary eps ncl l then l else old.
(** bool(collection), lines 508-515. *)
Definition collection_bool (eps : R) (ncl : nat) (l : list (pykey * entry)) : bool := check_dictionary eps ncl l.

(** CollectionOfStates(circuit, dictionary), lines 322-335. None: exception. *)
Definition load_step (D : dims) (eps : R) (ncl : nat) (acc : option (list (pykey * state))) (ke : pykey * entry) :
  option (list (pykey * state)) :=
  match acc with
  | None => None
  | Some out =>
      match snd ke with
      | EState st => Some (dset pykey_eqb (fst ke) st out)
      | EDict d => option_map (fun st => dset pykey_eqb (fst ke) st out) (state_from_dict D eps ncl d)
      | EOther => Some out
      end
  end.
(** CollectionOfStates(circuit, input), collection_of_states.py:274-335. *)
Definition new_collection (D : dims) (eps : R) (ncl : nat) (l : option (list (pykey * entry))) : option (list (pykey * state)) :=
  match l with
  | None => Some (map (fun it => (KStr (fst it), snd it)) (co_items (default_collection D ncl eps)))
  | Some [] => Some []
  | Some l => if check_dictionary eps ncl l then fold_left (load_step D eps ncl) l (Some []) else None
  end.

(** initial_states_as_list, lines 392-402, and state_identifiers_as_list, lines 383-390. *)
Definition initial_states_as_list (its : items) : list ident := map (fun it => s_init (snd it)) its.
(** state_identifiers_as_list, collection_of_states.py:383-390. *)
Definition state_identifiers_as_list (its : items) : list ident := map fst its.
