(** Model of photon-resolved states: columns, interference groups, time delays and the measurement
    of photon-resolved collections.
    Source: src/fock_state_circuit/temporal_and_spectral_gate_functionality/column_of_states.py
    (COS below), interference_group.py (IG), collection_of_state_columns.py (CSC),
    temporal_functions.py (TF) and nodes/spectral_nodes.py (SN).
    Numbers are exact; division by zero (nan or inf in numpy) is treated as an exception: None.
    States are values: that split() and the ColumnOfStates constructor write into the State
    objects of the collection they are given is not part of this model. *)
From Coq Require Import Reals List Arith Bool.
From Coquelicot Require Import Complex.
From Verif Require Import Prelude NamesModel FockModel OpticalModel StateModel CollectionModel EvalModel OperatorModel.
Import ListNotations.

(** ** state.auxiliary_information['photon_resolution'] *)
(** The empty dictionary that is completed with the defaults of COS:207-214. *)
Definition no_resolution : resolution := Resolution None None None None None None.
(** A value of another type stored by the user under this key is treated as if it were absent. *)
(** COS:217-339 and IG:423-486 read it with .get('photon_resolution'). *)
Definition resolution_of (st : state) : option resolution :=
  match dget aux_eqb AuxPhotonResolution (s_aux st) with Some (AuxResolution r) => Some r | _ => None end.
(** Assignment to auxiliary_information['photon_resolution'], COS:342-389. *)
Definition with_resolution (st : state) (r : resolution) : state :=
  with_aux st (dset aux_eqb AuxPhotonResolution (AuxResolution r) (s_aux st)).
(** dict.get(key, default), COS:217-339. *)
Definition or_else {A} (o : option A) (d : A) : A := match o with Some x => x | None => d end.
(** photon_information of a state: (time_delay, pulse_width). *)
(** Read in IG:707-738 and TF:254-274. *)
Definition photon_of (st : state) : option (R * R) :=
  match resolution_of st with Some r => r_photon r | None => None end.
(** Written in TF:120-147 and TF:171-251. *)
Definition with_photon (st : state) (i : R * R) : state :=
  let r := or_else (resolution_of st) no_resolution in
  with_resolution st (Resolution (r_column r) (r_amplitude r) (r_boson r) (r_group r) (r_group_cum r) (Some i)).

(** ** Columns (COS) *)
(** ColumnOfStates with its five attributes and its list of states, COS:217-339. *)
Record column := Column {
  col_id : nat; col_amp : C; col_boson : R; col_group : nat; col_cum : R; col_states : list state }.
(** The setters, COS:343-390, and the constructor write the five values into every state. *)
Definition stamp (id : nat) (amp : C) (boson : R) (grp : nat) (cum : R) (st : state) : state :=
  with_resolution st (Resolution (Some id) (Some amp) (Some boson) (Some grp) (Some cum) (photon_of st)).
(** The constructor with given values, COS:217-339. *)
Definition make_column (id : nat) (amp : C) (boson : R) (grp : nat) (cum : R) (sts : list state) : column :=
  Column id amp boson grp cum (map (stamp id amp boson grp cum) sts).
(** COS:217-338: the five values come from the first state, with the defaults of COS:210-214
    (column_information is never passed inside the library). *)
Definition column_of (sts : list state) : column :=
  match sts with
  | [] => Column 0 (RtoC 1) 1 0 1 []
  | st :: _ =>
      let r := or_else (resolution_of st) no_resolution in
      make_column (or_else (r_column r) 0) (or_else (r_amplitude r) (RtoC 1)) (or_else (r_boson r) 1%R)
                  (or_else (r_group r) 0) (or_else (r_group_cum r) 1%R) sts
  end.
(** The column with another list of states (col_states), COS:413-440. *)
Definition with_states (c : column) (sts : list state) : column :=
  make_column (col_id c) (col_amp c) (col_boson c) (col_group c) (col_cum c) sts.
(** Setter, COS:346-349. *)
Definition col_with_id (c : column) (id : nat) : column :=
  make_column id (col_amp c) (col_boson c) (col_group c) (col_cum c) (col_states c).
(** Setter, COS:366-369. *)
Definition col_with_amp (c : column) (a : C) : column :=
  make_column (col_id c) a (col_boson c) (col_group c) (col_cum c) (col_states c).
(** Setter, COS:376-379. *)
Definition col_with_boson (c : column) (b : R) : column :=
  make_column (col_id c) (col_amp c) b (col_group c) (col_cum c) (col_states c).
(** Setter, COS:356-359. *)
Definition col_with_group (c : column) (g : nat) : column :=
  make_column (col_id c) (col_amp c) (col_boson c) g (col_cum c) (col_states c).
(** Setter, COS:386-389. *)
Definition col_with_cum (c : column) (p : R) : column :=
  make_column (col_id c) (col_amp c) (col_boson c) (col_group c) p (col_states c).
(** add_state, COS:412-429. *)
Definition column_add (c : column) (st : state) : column := with_states c (col_states c ++ [st]).
(** copy, COS:431-440. *)
Definition copy_column (eps : R) (ncl : nat) (c : column) : option column :=
  option_map (with_states c) (option_list (map (copy_state eps ncl) (col_states c))).

(** Splitting one state with several components, COS:475-501: (remaining components, remaining
    amplitude, split-off components, split-off amplitude). *)
Definition split_state (cs : list (name * (C * R)))
  : option (list (name * (C * R)) * C * list (name * (C * R)) * C) :=
  match cs with
  | [] => None
  | [(n1, (a1, _)); (n2, (a2, _))] => Some ([(n2, (RtoC 1, 1%R))], a2, [(n1, (RtoC 1, 1%R))], a1)
  | (n1, (a1, _)) :: rest =>
      let p := (1 - Cnorm2 a1)%R in
      if Rlt_dec 0 p then
        let r := RtoC (sqrt p) in
        Some (map (fun c => let a := (fst (snd c) / r)%C in (fst c, (a, Cnorm2 a))) rest, r,
              [(n1, (RtoC 1, 1%R))], a1)
      else None
  end.
(** The search for the first state with a number of components different from 1, COS:458-463.
    Some None: no such state. *)
Fixpoint split_first (sts : list state) : option (option (list state * C * list state * C)) :=
  match sts with
  | [] => Some None
  | st :: r =>
      match s_comps st with
      | [_] => match split_first r with
               | Some (Some (rem, b, new, a)) => Some (Some (st :: rem, b, st :: new, a))
               | x => x
               end
      | cs => match split_state cs with
              | None => None
              | Some (remc, b, newc, a) => Some (Some (with_comps st remc :: r, b, with_comps st newc :: r, a))
              end
      end
  end.
(** split, COS:442-508: the remaining column and the new column (its identifier is set by the
    caller). The states of the new column are copies. *)
Definition split_column (eps : R) (ncl : nat) (c : column) : option (option (column * column)) :=
  match split_first (col_states c) with
  | None => None
  | Some None => Some None
  | Some (Some (rem, b, new, a)) =>
      match copy_column eps ncl c with
      | None => None
      | Some _ =>
          Some (Some (make_column (col_id c) (col_amp c * b)%C (col_boson c) (col_group c) (col_cum c) rem,
                      make_column (col_id c) (col_amp c * a)%C (col_boson c) (col_group c) (col_cum c) new))
      end
  end.

(** The factors sqrt(photon_count+1), COS:544-551, 700-710; IG:786-789. *)
Definition boson_fold (b : R) (vs : values) : R :=
  fold_left (fun b k => (b * sqrt (INR (k + 1)))%R) (flat_map (seq 0) vs) b.
(** The photon numbers of one photon in channel c, COS:552-560. *)
Definition unit_values (n c : nat) : values := set_nth (repeat 0 n) c 1.
(** The channels of the photons, channel 0 first: COS:546-547 and 587-589, IG:783-785. *)
Definition photon_channels (vs : values) : list nat :=
  flat_map (fun cv => repeat (fst cv) (snd cv)) (combine (seq 0 (length vs)) vs).
(** The states for one state of the column, COS:538-563; only the first component is used. *)
Definition single_photons (D : dims) (eps : R) (ncl : nat) (st : state) : option (list state) :=
  match s_comps st with
  | [] => None
  | (nm, (a, _)) :: _ =>
      let vs := values_of_name D nm in
      let mk vs' := match copy_state eps ncl st, name_of_values D vs' with
                    | Some s, Some nm' => Some (with_comps s [(nm', (a, Cnorm2 a))])
                    | _, _ => None
                    end in
      if 0 <? sum_values vs then option_list (map (fun c => mk (unit_values (length vs) c)) (photon_channels vs))
      else option_list [mk (repeat 0 (length vs))]
  end.
(** The boson factor contributed by one state. *)
(** The photon numbers of the first component, COS:538-551. *)
Definition first_values (D : dims) (st : state) : values :=
  match s_comps st with [] => [] | (nm, _) :: _ => values_of_name D nm end.
(** single_photon_states, COS:511-567. The check in line 529 lacks the parentheses of a method
    call, so it never raises. *)
Definition single_photon_column (D : dims) (eps : R) (ncl : nat) (c : column) : option column :=
  match option_list (map (single_photons D eps ncl) (col_states c)) with
  | None => None
  | Some ls =>
      Some (make_column (col_id c) (col_amp c)
              (fold_left (fun b st => boson_fold b (first_values D st)) (col_states c) (col_boson c))
              (col_group c) (col_cum c) (concat ls))
  end.
(** list_of_photons, COS:569-590. *)
Definition list_of_photons (D : dims) (c : column) : list (nat * option (R * R)) :=
  flat_map (fun st => map (fun ch => (ch, photon_of st)) (photon_channels (first_values D st))) (col_states c).
(** [n+m for n,m in zip(..)], COS:699 and 771. *)
Definition add_values (a b : values) : values := map (fun p => fst p + snd p) (combine a b).
(** The photon numbers of the whole column, COS:692-699 and 764-771. None: the column is empty. *)
Definition column_values (D : dims) (c : column) : option values :=
  match map (first_values D) (col_states c) with
  | [] => None
  | v :: r => Some (fold_left (fun acc new => add_values new acc) r v)
  end.
(** condense_column_to_single_state, COS:660-733; the new state is a copy of the last one. *)
Definition condense (D : dims) (eps : R) (ncl : nat) (use_group : bool) (c : column) : option column :=
  match column_values D c, rev (col_states c) with
  | Some vs, st :: _ =>
      if existsb (fun s => match s_comps s with [] => true | _ => false end) (col_states c) then None else
      if contains_values D vs then
        match copy_state eps ncl st with
        | None => None
        | Some s =>
            let s := with_comps s [(name_string D vs, (RtoC 1, 1%R))] in
            let boson := (col_boson c
                            * fold_left Rmult (map (fun st => boson_fold 1 (first_values D st)) (col_states c)) 1
                            / boson_fold 1 vs)%R in
            match (if use_group then set_cumulative s (col_cum c * Cnorm2 (col_amp c)) else Some s) with
            | None => None
            | Some s => Some (make_column (col_id c) (col_amp c) boson (col_group c) (col_cum c) [s])
            end
        end
      else None
  | _, _ => None
  end.
(** del state.auxiliary_information['photon_resolution'], COS:829 and IG:587. *)
Definition drop_resolution (st : state) : state := with_aux st (ddel aux_eqb AuxPhotonResolution (s_aux st)).
(** generate_single_state_from_column, COS:783-831. *)
Definition column_state (D : dims) (eps : R) (ncl : nat) (use_group : bool) (c : column) : option state :=
  match copy_column eps ncl c with
  | None => None
  | Some c' => match condense D eps ncl use_group c' with
               | Some c'' => match col_states c'' with st :: _ => Some (drop_resolution st) | [] => None end
               | None => None
               end
  end.

(** ** Interference groups (IG) *)
(** InterferenceGroup: identifier, cumulative probability and its columns, IG:227-308. *)
Record group := Group { g_id : nat; g_cum : R; g_cols : list (nat * column) }.
(** The lowest number that is not used, IG:383-388 and CSC:188-194. *)
Fixpoint free_number (fuel k : nat) (used : list nat) : nat :=
  match fuel with O => k | S f => if existsb (Nat.eqb k) used then free_number f (S k) used else k end.
(** set_next_new_column_identifier and find_next_free_interference_group_identifier, IG:383-388 and CSC:188-194. *)
Definition next_number (used : list nat) : nat := free_number (length used) 0 used.
(** add_column, IG:396-420. *)
Definition add_column (g : group) (c : column) (id : option nat) : group :=
  let fresh := let k := next_number (dkeys (g_cols g)) in
               Group (g_id g) (g_cum g) (g_cols g ++ [(k, col_with_group (col_with_id c k) (g_id g))]) in
  match id with
  | None => fresh
  | Some k => if dmem Nat.eqb k (g_cols g) then fresh else Group (g_id g) (g_cum g) (g_cols g ++ [(k, c)])
  end.
(** The setters, IG:310-328. *)
Definition group_with_id (g : group) (n : nat) : group :=
  Group n (g_cum g) (map (fun kc => (fst kc, col_with_group (snd kc) n)) (g_cols g)).
(** Setter, IG:325-328. *)
Definition group_with_cum (g : group) (p : R) : group :=
  Group (g_id g) p (map (fun kc => (fst kc, col_with_cum (snd kc) p)) (g_cols g)).
(** The constructor for one state without photon_resolution and for a list of columns,
    IG:227-308. In the second case the identifier is that of the first column unless given. *)
Definition group_of_state (st : state) (id : nat) : group :=
  group_with_cum (group_with_id (add_column (Group id 1 []) (column_of [st]) None) id) (s_cum st).
(** The constructor from a list of columns, IG:227-308. *)
Definition group_of_columns (cs : list column) (id : option nat) : group :=
  match cs with
  | [] => Group (or_else id 0) 1 []
  | c :: _ =>
      group_with_id (fold_left (fun g c => add_column g c (Some (col_id c))) cs (Group 0 (col_cum c) []))
                    (or_else id (col_group c))
  end.
(** add_state for a state with photon_resolution and column_identifier None, IG:428-436.
    None: the key column_identifier is missing. *)
Fixpoint add_to_column (k : nat) (st : state) (cols : list (nat * column)) : option (list (nat * column)) :=
  match cols with
  | [] => None
  | (n, c) :: r => if col_id c =? k then Some ((n, column_add c st) :: r)
                   else option_map (cons (n, c)) (add_to_column k st r)
  end.
(** add_state, IG:423-486. *)
Definition group_add_state (g : group) (st : state) : option group :=
  match resolution_of st with
  | Some r =>
      match r_column r with
      | Some k => match add_to_column k st (g_cols g) with
                  | Some cols => Some (Group (g_id g) (g_cum g) cols)
                  | None => Some (add_column g (column_of [st]) (Some k))
                  end
      | None => None
      end
  | None => None
  end.
(** The first column that can be split is split, IG:511-521; Some None: there is none. *)
Fixpoint split_one (eps : R) (ncl : nat) (cols : list (nat * column))
  : option (option (list (nat * column) * column)) :=
  match cols with
  | [] => Some None
  | (k, c) :: r =>
      match split_column eps ncl c with
      | None => None
      | Some (Some (rem, new)) => Some (Some ((k, rem) :: r, new))
      | Some None => match split_one eps ncl r with
                     | Some (Some (r', new)) => Some (Some ((k, c) :: r', new))
                     | x => x
                     end
      end
  end.
(** split_columns, IG:487-528: recursion until no column can be split. The number of products of
    components does not change, the number of columns grows. *)
Fixpoint split_loop (fuel : nat) (eps : R) (ncl : nat) (g : group) : option group :=
  match split_one eps ncl (g_cols g) with
  | None => None
  | Some None => Some g
  | Some (Some (cols, new)) =>
      match fuel with
      | O => None
      | S f => split_loop f eps ncl (add_column (Group (g_id g) (g_cum g) cols) new None)
      end
  end.
(** The product of the numbers of components: fuel for split_columns (IG:488-527), not in the code. *)
Definition column_size (c : column) : nat := fold_right Nat.mul 1 (map (fun st => length (s_comps st)) (col_states c)).
(** split_columns, IG:488-527. *)
Definition split_columns (eps : R) (ncl : nat) (g : group) : option group :=
  split_loop (fold_right Nat.add 0 (map (fun kc => column_size (snd kc)) (g_cols g))) eps ncl g.
(** single_photon_states, IG:530-541. *)
Definition map_columns (f : column -> option column) (g : group) : option group :=
  option_map (Group (g_id g) (g_cum g))
    (option_list (map (fun kc => option_map (pair (fst kc)) (f (snd kc))) (g_cols g))).
(** single_photon_states, IG:529-540. *)
Definition single_photon_group (D : dims) (eps : R) (ncl : nat) (g : group) : option group :=
  map_columns (single_photon_column D eps ncl) g.
(** by_column, IG:371-374. *)
Definition group_columns (g : group) : list column := map snd (g_cols g).
(** by_state, IG:365-369. *)
Definition group_states_of (g : group) : list state := flat_map col_states (group_columns g).
(** generate_single_state_from_interference_group, IG:543-588 (columns are not empty). *)
Definition group_state (D : dims) (eps : R) (ncl : nat) (g : group) : option state :=
  match split_columns eps ncl g with
  | None => None
  | Some g =>
      match option_list (map (fun c => option_map (pair c) (column_state D eps ncl true c)) (group_columns g)) with
      | None => None
      | Some l =>
          match rev l with
          | [] => None
          | (c, st) :: _ =>
              let comps := fold_left (fun acc (x : column * state) =>
                  fold_left (fun acc nm => let a := (col_amp (fst x) * fst (snd nm))%C in
                                           dset leqb (fst nm) (a, Cnorm2 a) acc) (s_comps (snd x)) acc) l [] in
              match copy_state eps ncl st with
              | None => None
              | Some s => option_map (fun s => drop_resolution (with_comps s comps)) (set_cumulative s (col_cum c))
              end
          end
      end
  end.

(** ** Collections of columns (CSC) *)
(** CollectionOfStateColumns: a dictionary initial_state -> group identifier -> group, CSC:56-115. *)
Definition columns := list (ident * list (nat * group)).
(** The constructor for one state, CSC:83-112. *)
Definition place_state (acc : option columns) (st : state) : option columns :=
  match acc with
  | None => None
  | Some cc =>
      let groups := or_else (dget leqb (s_init st) cc) [] in
      match resolution_of st with
      | None =>
          let k := next_number (dkeys groups) in
          Some (dset leqb (s_init st) (dset Nat.eqb k (group_of_state st k) groups) cc)
      | Some r =>
          match r_group r with
          | None => None
          | Some k =>
              match dget Nat.eqb k groups with
              | None => Some (dset leqb (s_init st) (dset Nat.eqb k (group_of_columns [column_of [st]] None) groups) cc)
              | Some g => option_map (fun g => dset leqb (s_init st) (dset Nat.eqb k g groups) cc) (group_add_state g st)
              end
          end
      end
  end.
(** The constructor from a collection, CSC:56-115. *)
Definition columns_of (its : items) : option columns := fold_left place_state (map snd its) (Some []).
(** by_group, CSC:182-186. *)
Definition all_groups (cc : columns) : list group := flat_map (fun x => map snd (snd x)) cc.
(** split and single_photon_states, CSC:216-233. *)
Definition split_groups (eps : R) (ncl : nat) (gs : list group) : option (list group) :=
  option_list (map (split_columns eps ncl) gs).
(** single_photon_states, CSC:227-233. *)
Definition single_photon_groups (D : dims) (eps : R) (ncl : nat) (gs : list group) : option (list group) :=
  option_list (map (single_photon_group D eps ncl) gs).
(** Constructor, split and single_photon_states in a row. *)
(** CSC:56-115, 217-225, 227-233, as called in TF:118-119 and SN:287-320. *)
Definition resolved_groups (cs : coll) : option (list group) :=
  match columns_of (co_items cs) with
  | None => None
  | Some cc => match split_groups (co_eps cs) (co_ncl cs) (all_groups cc) with
               | None => None
               | Some gs => single_photon_groups (co_D cs) (co_eps cs) (co_ncl cs) gs
               end
  end.
(** collection.copy() followed by clear() and add_state for every state. *)
(** TF:114-115, 149-151. *)
Definition collect (rnd : nat -> nat) (cs : coll) (sts : list state) : option coll :=
  match copy_collection cs with
  | None => None
  | Some _ => Some (with_items cs (fst (add_states_random rnd 0 sts [])))
  end.

(** ** Time delays (TF) *)
(** photon_probability_function, TF:254-274. Missing information: the exception is caught and
    gives 1. Pulse widths are positive. *)
Definition overlap (a b : option (R * R)) : R :=
  match a, b with
  | Some (d1, w1), Some (d2, w2) =>
      exp (- 1 * ln 2 * ((d1 - d2) / sqrt (w1 ^ 2 + w2 ^ 2)) ^ 2)
  | _, _ => 1%R
  end.
(** A delay is a number or is read from a classical channel (IndexError: None). *)
(** The two uses of add_time_delay_generic, TF:154-168. *)
Inductive delay := Delay (t : R) | DelayFrom (channel : nat).
(** TF:120-147 and TF:154-168. *)
Definition delay_of (d : delay) (st : state) : option R :=
  match d with Delay t => Some t | DelayFrom c => nth_error (s_classical st) c end.
(** The loop body of add_time_delay_generic, TF:120-147. A channel number that does not exist
    raises (the model raises even if the loop would be left before). pulse_width None is not
    modelled. *)
Definition touches (D : dims) (chs : list nat) (st : state) : bool :=
  existsb (fun c => negb (nth c (first_values D st) 0 =? 0)) chs.
(** One state of the loop, TF:120-147. *)
Definition delayed_state (D : dims) (chs : list nat) (d : delay) (w : R) (st : state) : option state :=
  if forallb (fun c => c <? dN D) chs then
    match delay_of d st with
    | None => None
    | Some t =>
        let i := or_else (photon_of st) (0%R, w) in
        Some (with_photon st ((if touches D chs st then fst i + -1 * t else fst i)%R, w))
    end
  else None.
(** add_time_delay_generic, TF:85-151. *)
Definition add_time_delay (rnd : nat -> nat) (chs : list nat) (d : delay) (w : R) (cs : coll) : option coll :=
  match resolved_groups cs with
  | None => None
  | Some gs =>
      match option_list (map (delayed_state (co_D cs) chs d w) (flat_map group_states_of gs)) with
      | None => None
      | Some sts => collect rnd cs sts
      end
  end.
(** set_pulse_width, TF:172-251. The comparison of sets in line 198. *)
Definition widened (w : R) (st : state) : state :=
  with_photon st (fst (or_else (photon_of st) (0%R, 1%R)), w).
(** TF:198. *)
Definition same_set (a b : list nat) : bool :=
  forallb (fun x => existsb (Nat.eqb x) b) a && forallb (fun x => existsb (Nat.eqb x) a) b.
(** set_pulse_width, TF:171-251. *)
Definition set_pulse_width (rnd : nat -> nat) (chs : list nat) (w : R) (cs : coll) : option coll :=
  match chs with
  | [] => Some cs
  | _ =>
      if same_set chs (seq 0 (dN (co_D cs))) then
        Some (with_items cs (map (fun it => (fst it, widened w (snd it))) (co_items cs)))
      else if forallb (fun c => c <? dN (co_D cs)) chs then
        match resolved_groups cs with
        | None => None
        | Some gs =>
            match option_list (map (fun st => option_map (fun s =>
                     if touches (co_D cs) chs s then widened w s
                     else with_photon s (or_else (photon_of s) (0%R, 1%R)))
                   (copy_state (co_eps cs) (co_ncl cs) st)) (flat_map group_states_of gs)) with
            | None => None
            | Some sts => collect rnd cs sts
            end
        end
      else None
  end.
(** add_quick_time_delay_generic, TF:276-401. *)
Definition gauss (t w : R) : R := exp (- 1 * ln 2 * (t / w) ^ 2).
(** The overlap column, TF:337-345. *)
Definition overlap_column (eps : R) (ncl : nat) (ov : R) (c : column) : option column :=
  match option_list (map (copy_state eps ncl) (col_states c)) with
  | None => None
  | Some sts =>
      match option_list (map (fun st => option_map (fun s => with_photon s (0%R, 1%R)) (set_cumulative st (s_cum st * ov))) sts) with
      | None => None
      | Some sts' => Some (make_column (col_id c) (col_amp c) (col_boson c) (col_group c) (col_cum c * ov) sts')
      end
  end.
(** behind_optical_components / ahead_optical_components, TF:357-367 and 373-383: the photons in
    the channels selected by [keep] stay. *)
Definition masked (keep : nat -> bool) (vs : values) : values :=
  map (fun cv => if keep (fst cv) then snd cv else 0) (combine (seq 0 (length vs)) vs).
(** TF:357-367 and 373-383. *)
Definition masked_components (D : dims) (keep : nat -> bool) (cs : list (name * (C * R))) : option (list (name * (C * R))) :=
  option_map components_of_list
    (option_list (map (fun c => option_map (fun nm => (nm, fst (snd c)))
                                  (name_of_values D (masked keep (values_of_name D (fst c))))) cs)).
(** TF:352-391. *)
Definition part_state (D : dims) (eps : R) (ncl : nat) (sep : R) (keep : nat -> bool) (t : R) (st : state) : option state :=
  match copy_state eps ncl st, masked_components D keep (s_comps st) with
  | Some s, Some comps => set_cumulative (with_photon (with_comps s comps) (t, 1%R)) (s_cum st * sep)
  | _, _ => None
  end.
(** The column for the separated situation, TF:352-391. *)
Definition separated_column (D : dims) (eps : R) (ncl : nat) (sep : R) (chs : list nat) (c : column) : option column :=
  match option_list (flat_map (fun st =>
      [part_state D eps ncl sep (fun ch => negb (existsb (Nat.eqb ch) chs)) (-100) st;
       part_state D eps ncl sep (fun ch => existsb (Nat.eqb ch) chs) 100 st]) (col_states c)) with
  | None => None
  | Some sts => Some (col_with_cum (column_of sts) (col_cum c * sep))
  end.
(** One group, TF:316-399; [k]: the number of groups made so far. The delay is that of the first
    state of the group (unbound for an empty group: None). *)
Definition quick_group (D : dims) (eps : R) (ncl : nat) (chs : list nat) (d : delay) (w : R) (k : nat) (g : group) : option (list group) :=
  match group_states_of g with
  | [] => None
  | st :: _ =>
      match delay_of d st with
      | None => None
      | Some t =>
          let ov := gauss t w in let sep := (1 - ov)%R in
          match option_list (map (overlap_column eps ncl ov) (group_columns g)),
                option_list (map (separated_column D eps ncl sep chs) (group_columns g)) with
          | Some cs1, Some cs2 => Some [group_of_columns cs1 (Some (k + 1)); group_of_columns cs2 (Some (k + 2))]
          | _, _ => None
          end
      end
  end.
(** add_quick_time_delay_generic and its two uses, TF:276-417. *)
Definition add_quick_time_delay (rnd : nat -> nat) (chs : list nat) (d : delay) (w : R) (cs : coll) : option coll :=
  match columns_of (co_items cs) with
  | None => None
  | Some cc =>
      match split_groups (co_eps cs) (co_ncl cs) (all_groups cc) with
      | None => None
      | Some gs =>
          match option_list (map (fun kg => quick_group (co_D cs) (co_eps cs) (co_ncl cs) chs d w (2 * fst kg) (snd kg))
                                 (combine (seq 0 (length gs)) gs)) with
          | None => None
          | Some ls => collect rnd cs (flat_map group_states_of (concat ls))
          end
      end
  end.
(** The nodes, SN:96-284. Without argument set_pulse_width takes all channels. *)
Definition time_delay_full (rnd : nat -> nat) (chs : list nat) (d : delay) (w : R) : node := NFunction (add_time_delay rnd chs d w).
(** SpectralNodes.time_delay and time_delay_classical_control, SN:162-246. *)
Definition time_delay (rnd : nat -> nat) (chs : list nat) (d : delay) (w : R) : node := NFunction (add_quick_time_delay rnd chs d w).
(** SpectralNodes.set_pulse_width, SN:248-284. *)
Definition pulse_width_node (rnd : nat -> nat) (chs : list nat) (w : R) : node := NFunction (set_pulse_width rnd chs w).

(** ** Measurement (IG) *)
(** _valid_combinations, IG:612-667. *)
Definition valid_combinations (projection channels : list nat) : list (list nat) :=
  filter (fun v => length v =? length projection)
    (fold_left (fun acc p =>
        let matching := map fst (filter (fun ic => snd ic =? p) (combine (seq 0 (length channels)) channels)) in
        flat_map (fun v => map (fun o => v ++ [o]) (filter (fun o => negb (existsb (Nat.eqb o) v)) matching)) acc)
      projection [[]]).
(** _calculate_probability_for_photon_sequence, IG:708-741. *)
Definition sequence_probability (bra ket : list (nat * option (R * R))) (sq : list (nat * nat)) : R :=
  fold_left Rmult (map (fun p => overlap (snd (nth (fst p) bra (0, None))) (snd (nth (snd p) ket (0, None)))) sq) 1%R.
(** _find_valid_photon_pairs_for_projection, IG:669-704, and
    _calculate_probability_for_this_projection_for_these_state_columns, IG:793-842.
    None: no pair contributes. *)
Definition pair_probability (D : dims) (projection : list nat) (pb : R) (bra ket : column) : option C :=
  let vb := valid_combinations projection (map fst (list_of_photons D bra)) in
  let vk := valid_combinations projection (map fst (list_of_photons D ket)) in
  match flat_map (fun b => map (fun k => combine b k) vk) vb with
  | [] => None
  | pairs =>
      Some (Cconj (col_amp ket) * col_amp bra / RtoC (pb * pb) / RtoC (col_boson ket * col_boson bra)
            * RtoC (fold_left Rplus (map (sequence_probability (list_of_photons D bra) (list_of_photons D ket)) pairs) 0%R))%C
  end.
(** _measurement_projection, IG:743-791, for photon numbers that exist in the circuit. *)
Definition projection_of (vs : values) : list nat * R := (photon_channels vs, boson_fold 1 vs).
(** _probability_column_list, IG:895-911. The column values exist in the circuit (otherwise
    the component is None and the look-up raises). *)
Definition column_list_probability (D : dims) (vs : values) (cs : list column) : R :=
  let (pr, pb) := projection_of vs in
  Cmod (fold_left (fun acc bk => match pair_probability D pr pb (fst bk) (snd bk) with Some p => (acc + p)%C | None => acc end)
          (list_prod cs cs) (RtoC 0)).
(** str(number) joined without separator, IG:950. *)
Definition outcome_string (opt : list nat) (vs : values) : list nat :=
  flat_map (fun c => pad (ndigits (nth c vs 0)) (nth c vs 0)) opt.
(** rescale_column_amplitudes, IG:590-597. *)
Definition rescale_amplitudes (g : group) : option group :=
  let s := fold_left Rplus (map (fun c => Cnorm2 (col_amp c)) (group_columns g)) 0%R in
  if Req_EM_T s 0 then None
  else map_columns (fun c => Some (col_with_amp c (col_amp c / RtoC (sqrt s))%C)) g.
(** rescale_boson_factors, IG:599-613. The correction is a positive number. *)
Definition rescale_boson (D : dims) (g : group) : option group :=
  map_columns (fun c =>
    match column_values D c with
    | None => None
    | Some vs =>
        let (pr, pb) := projection_of vs in
        match pair_probability D pr pb c c with
        | None => None
        | Some p =>
            if Rlt_dec 0 (fst p) then
              let correction := (Cnorm2 (col_amp c) / fst p)%R in
              if Rlt_dec 0 correction then Some (col_with_boson c (col_boson c / sqrt correction)) else None
            else None
        end
    end) g.
(** The classical values and records, IG:972-977: one record per measured channel, all holding
    the same list object. *)
Definition record_outcome (cl : list nat) (outcome : list nat) (p : R) (st : state) : state :=
  let classical := write_classical cl outcome (s_classical st) in
  State (s_init st) (s_cum st) (s_comps st) classical
        (s_results st ++ repeat (classical, p) (length outcome)) (s_aux st).
(** The new group for one outcome, IG:953-979. *)
Definition outcome_group (D : dims) (opt cl : list nat) (cvs : list (values * column)) : option group :=
  let p := fold_left Rplus (map (fun f => column_list_probability D (fst f) (map snd (snd f)))
                               (group_by leqb fst cvs)) 0%R in
  let g := group_of_columns (map snd cvs) None in
  match cvs with
  | [] => None
  | (vs, _) :: _ =>
      match rescale_amplitudes (group_with_cum g (g_cum g * p)) with
      | None => None
      | Some g => match rescale_boson D g with
                  | None => None
                  | Some g => map_columns (fun c => Some (with_states c (map (record_outcome cl (outcome_of opt vs) p) (col_states c)))) g
                  end
      end
  end.
(** measure_interference_group(_alternative), IG:914-1013, for list_of_projections see ProjectionModel.v. None:
    a photon number of a column does not exist in the circuit, or the column is empty. *)
Definition measure_group (D : dims) (opt cl : list nat) (g : group) : option (list group) :=
  match option_list (map (fun c => match column_values D c with
                                   | Some vs => if contains_values D vs then Some (vs, c) else None
                                   | None => None end) (group_columns g)) with
  | None => None
  | Some cvs => option_list (map (fun o => outcome_group D opt cl (snd o))
                                 (group_by leqb (fun cv => outcome_string opt (fst cv)) cvs))
  end.
(** perform_measurement, CSC:235-266, of the groups [gs]. *)
Definition measure_all_groups (rnd : nat -> nat) (opt cl : list nat) (cs : coll) (gs : list group) : option coll :=
  match option_list (map (measure_group (co_D cs) opt cl) gs) with
  | None => None
  | Some ls =>
      let numbered := map (fun kg => group_with_id (snd kg) (fst kg)) (combine (seq 0 (length (concat ls))) (concat ls)) in
      collect rnd cs (flat_map group_states_of numbered)
  end.
(** perform_measurement_photon_resolved, SN:287-323, without list_of_projections (with one:
    ProjectionModel.v). *)
Definition measure_resolved (rnd : nat -> nat) (opt cl : list nat) (cs : coll) : option coll :=
  match resolved_groups cs with
  | None => None
  | Some gs => measure_all_groups rnd opt cl cs gs
  end.
(** Photon-resolved measurements in evaluate_circuit, circuit.py:404-420. *)
Definition with_resolved (rnd : nat -> nat) (X : externals) : externals := Externals (measure_resolved rnd) (x_pr X).
