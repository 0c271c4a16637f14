(** Model of CollectionOfStates: src/fock_state_circuit/collection_of_states.py.
    A collection is its shape (the circuit it belongs to) and its dictionary of states. *)
From Coq Require Import Reals List Arith Lia Bool.
From Coquelicot Require Import Complex.
From Verif Require Import Prelude NamesModel FockModel StateModel.
Import ListNotations.

(** collection_of_states.py:274-335: shape, number of classical channels, threshold, states. *)
Record coll := Coll {
  co_D : dims;
  co_ncl : nat;
  co_eps : R;
  co_items : items }.

(** The same collection with another dictionary of states: collection_copy after clear() and add_state(), as in collection_of_states.py:596-614, 664-670. *)
Definition with_items (cs : coll) (its : items) : coll :=
  Coll (co_D cs) (co_ncl cs) (co_eps cs) its.

(** ** Random identifiers *)

(** alphabet[i]: 26 lower-case letters and 10 digits (as character codes), line 413. *)
Definition alphabet (i : nat) : nat := if i mod 36 <? 26 then 97 + i mod 36 else 48 + (i mod 36 - 26).
(** 'identifier_' *)
(** collection_of_states.py:413. *)
Definition identifier_ : ident := [105;100;101;110;116;105;102;105;101;114;95].

(** while identifier in keys: identifier += alphabet[random.randint(0,35)], lines 415-416.
    [rnd k] is the k-th random number drawn, [seed] the number of draws so far. Each turn
    makes the identifier longer, so at most length keys turns happen. *)
Fixpoint fresh_loop (fuel : nat) (rnd : nat -> nat) (seed : nat) (keys : list ident) (i : ident)
  : ident * nat :=
  match fuel with
  | O => (i, seed)
  | S f => if existsb (leqb i) keys
           then fresh_loop f rnd (S seed) keys (i ++ [alphabet (rnd seed)])
           else (i, seed)
  end.

(** lines 413-416 *)
Definition random_identifier (rnd : nat -> nat) (seed : nat) (keys : list ident) : ident * nat :=
  fresh_loop (S (length keys)) rnd (S seed) keys (identifier_ ++ [alphabet (rnd seed)]).

(** add_state, lines 404-419, with and without identifier. *)
Definition add_state (i : ident) (st : state) (its : items) : items := dset leqb i st its.
(** add_state without identifier, collection_of_states.py:404-419. *)
Definition add_state_random (rnd : nat -> nat) (seed : nat) (st : state) (its : items) : items * nat :=
  let (i, seed') := random_identifier rnd seed (dkeys its) in (add_state i st its, seed').
(** for st in l: collection.add_state(st) *)
(** e.g. collection_of_states.py:1053; add_state is 404-419. *)
Definition add_states_random (rnd : nat -> nat) (seed : nat) (l : list state) (its : items) : items * nat :=
  fold_left (fun acc st => add_state_random rnd (snd acc) st (fst acc)) l (its, seed).

(** ** Look-up, deletion, filters *)

(** The search for a state with this initial_state, collection_of_states.py:437-440. *)
Fixpoint find_init (l : ident) (its : items) : option (ident * state) :=
  match its with
  | [] => None
  | it :: r => if leqb (s_init (snd it)) l then Some it else find_init l r
  end.

(** get_state, lines 421-442. *)
Definition get_state (i : option ident) (init : option ident) (its : items) : option state :=
  let by_init := match init with
                 | Some l => option_map snd (find_init l its)
                 | None => None end in
  match i with
  | Some k => match dget leqb k its with Some st => Some st | None => by_init end
  | None => by_init
  end.

(** delete_state, lines 477-495. *)
Definition delete_state (i : option ident) (init : option ident) (its : items) : items :=
  let by_init := match init with
                 | Some l => match find_init l its with Some it => ddel leqb (fst it) its | None => its end
                 | None => its end in
  match i with
  | Some k => if dmem leqb k its then ddel leqb k its else by_init
  | None => by_init
  end.

(** filter_on_initial_state 535-553, filter_on_identifier 555-573 and
    filter_on_classical_channel 575-594: the kept states are copied (and checked). *)
Definition filter_items (eps : R) (ncl : nat) (p : ident * state -> bool) (its : items) : option items :=
  copy_items eps ncl (filter p its).
(** filter_on_initial_state, collection_of_states.py:535-553. *)
Definition filter_on_initial_state (ls : list ident) (cs : coll) : option coll :=
  option_map (with_items cs)
    (filter_items (co_eps cs) (co_ncl cs) (fun it => existsb (leqb (s_init (snd it))) ls) (co_items cs)).
(** filter_on_identifier, collection_of_states.py:555-574. *)
Definition filter_on_identifier (ls : list ident) (cs : coll) : option coll :=
  option_map (with_items cs)
    (filter_items (co_eps cs) (co_ncl cs) (fun it => existsb (leqb (fst it)) ls) (co_items cs)).
(** the pairs (channel, value) up to the shorter list, line 586; a channel number beyond the
    list of classical values (IndexError) is not modelled. *)
Definition filter_on_classical_channel (chs : list nat) (vals : list R) (cs : coll) : option coll :=
  option_map (with_items cs)
    (filter_items (co_eps cs) (co_ncl cs)
       (fun it => forallb (fun cv => if Req_EM_T (nth (fst cv) (s_classical (snd it)) 0%R) (snd cv) then true else false)
                          (combine chs vals)) (co_items cs)).

(** copy, lines 596-614. The new collection takes its threshold from the circuit; the model
    assumes the collection still has the threshold of its circuit. *)
Definition copy_collection (cs : coll) : option coll :=
  option_map (with_items cs) (copy_items (co_eps cs) (co_ncl cs) (co_items cs)).

(** ** The default collection *)

(** string_format.format(index) with as many digits as len(str(size of basis)), lines 651-653;
    character codes of the digits. *)
Definition default_identifier (D : dims) (i : nat) : ident :=
  identifier_ ++ map (fun d => 48 + d) (pad (ndigits (size_of_basis D)) i).

(** initialize_to_default, lines 626-662; [names] is what the component names enumerate. *)
Definition default_items (D : dims) (ncl : nat) (names : list name) : items :=
  dict_of leqb (map (fun ic =>
     (default_identifier D (fst ic),
      with_comps (with_init (initialized_state D ncl) (map (fun d => 48 + d) (snd ic)))
                 [(snd ic, (RtoC 1, 1%R))]))
   (combine (seq 0 (length names)) names)).

(** CollectionOfStates(circuit) on a freshly built circuit. *)
(** collection_of_states.py:274-335 with no input, then 626-662. *)
Definition default_collection (D : dims) (ncl : nat) (eps : R) : coll :=
  Coll D ncl eps (default_items D ncl (fst (cn_keys D (cache_init D)))).

(** ** Statistical mixtures *)

(** the cumulative_probability setter, state.py:195-200: None = exception. *)
Definition set_cumulative (st : state) (p : R) : option state :=
  if Rle_dec 0 p then if Rle_dec p 1 then Some (with_cum st p) else None else None.

(** 'mixture-' followed by five random characters, lines 457-460. *)
Definition mixture_label (rnd : nat -> nat) (seed : nat) : ident :=
  [109;105;120;116;117;114;101;45] ++ map (fun k => alphabet (rnd (seed + k))) (seq 0 5).

(** set_collection_as_statistical_mixture, lines 444-475: the new identifier is compared with
    the identifiers of the OLD collection (self._collection_of_states is replaced at the end).
    bool(state) (a validity check) is true for valid states; invalid states are not modelled. *)
Definition mixture_step (old : list ident) (lab : ident) (rnd : nat -> nat)
    (acc : option (items * nat)) (sw : state * R) : option (items * nat) :=
  match acc with
  | None => None
  | Some (mix, seed) =>
      let (i, seed') := random_identifier rnd seed old in
      match set_cumulative (fst sw) (snd sw) with
      | None => None
      | Some st => Some (dset leqb i (with_init st lab) mix, seed')
      end
  end.
(** set_collection_as_statistical_mixture, collection_of_states.py:444-475. *)
Definition statistical_mixture (rnd : nat -> nat) (seed : nat) (l : list (state * R)) (cs : coll)
  : option (coll * nat) :=
  match fold_left (mixture_step (dkeys (co_items cs)) (mixture_label rnd seed) rnd) l
                  (Some ([], seed + 5)) with
  | None => None
  | Some (mix, seed') => Some (with_items cs mix, seed')
  end.

(** ** Density matrix *)

(** np.outer(np.conjugate(vector), vector), weighted and summed over the states with the
    given initial_state, lines 721-728. *)
Definition density_matrix (D : dims) (init : ident) (its : items) : mat :=
  fold_left (fun (dm : mat) (it : ident * state) =>
     if leqb (s_init (snd it)) init then
       let v := state_vector D (snd it) in
       fun i j => (dm i j + RtoC (s_cum (snd it)) * (Cconj (v i) * v j))%C
     else dm) its (fun _ _ => RtoC 0).

(** ** reduce *)

(** [list[c] for c in keep] / the traced-out channels, lines 794-797. *)
Definition kept_values (keep : list nat) (vs : values) : values := map (fun c => nth c vs 0) keep.
(** The photon numbers of the channels that are traced out, collection_of_states.py:794-797. *)
Definition traced_values (n : nat) (keep : list nat) (vs : values) : values :=
  map (fun c => nth c vs 0) (filter (fun c => negb (existsb (Nat.eqb c) keep)) (seq 0 n)).
(** ''.join of the zero-padded numbers (channel order, whatever channel_0_left), line 798. *)
Definition traced_name (D : dims) (vs : values) : name :=
  concat (map (pad (digits_per_channel D)) vs).
(** The shape of the reduced circuit, collection_of_states.py:777-781. *)
Definition reduced_dims (D : dims) (keep : list nat) : dims := Dims (dL D) (length keep) (dLeft D).

(** One new state for one value of the traced-out channels, lines 813-833. A group with total
    probability 0 (division by zero, nan amplitudes) is treated as an exception. *)
Definition reduced_state (eps : R) (clkeep : list nat) (old : state) (comps : list (name * (C * R)))
  : option state :=
  let cum := Rsum comps (fun c => Cnorm2 (fst (snd c))) in
  if Req_EM_T cum 0 then None
  else
    let scale := sqrt (1 / cum) in
    let comps' := map (fun c => let a := (fst (snd c) * RtoC scale)%C in (fst c, (a, Cnorm2 a))) comps in
    make_state eps (length clkeep)
      (State (s_init old) (s_cum old * cum) comps'
             (map (fun c => nth c (s_classical old) 0%R) clkeep) (s_results old) (s_aux old)).

(** The components of a state, grouped by traced-out values; each group is a dictionary from
    new names to (amplitude, probability), lines 804-811. *)
Definition reduce_groups (D : dims) (keep : list nat) (st : state)
  : list (name * list (name * (C * R))) :=
  map (fun g => (fst g, dict_of leqb (map (fun c =>
          (name_string (reduced_dims D keep) (kept_values keep (values_of_name D (fst c))), snd c)) (snd g))))
    (group_by leqb (fun c => traced_name D (traced_values (dN D) keep (values_of_name D (fst c))))
              (s_comps st)).

(** The states made from one state, collection_of_states.py:785-833. *)
Definition reduce_state (D : dims) (eps : R) (keep clkeep : list nat) (it : ident * state)
  : option (list (ident * state)) :=
  option_list (map (fun g =>
      match reduced_state eps clkeep (snd it) (snd g) with
      | Some s => Some (fst it ++ map (fun d => 48 + d) (fst g), s)
      | None => None
      end) (reduce_groups D keep (snd it))).

(** reduce, lines 737-842. [] for a channel list means all channels. The attributes of the
    collection are only replaced inside the loop over its states (lines 834-840), so an empty
    collection keeps its shape. None: exception (unknown channel, fewer than two optical
    channels left, invalid state). *)
Definition reduce (keep clkeep : list nat) (cs : coll) : option coll :=
  let D := co_D cs in
  let keep := match keep with [] => seq 0 (dN D) | _ => keep end in
  let clkeep := match clkeep with [] => seq 0 (co_ncl cs) | _ => clkeep end in
  if forallb (fun c => c <? dN D) keep && forallb (fun c => c <? co_ncl cs) clkeep
     && (2 <=? length keep) then
    match co_items cs with
    | [] => Some cs
    | _ =>
      match option_list (map (reduce_state D (co_eps cs) keep clkeep) (co_items cs)) with
      | None => None
      | Some ls => Some (Coll (reduced_dims D keep) (length clkeep) (co_eps cs)
                          (dict_of leqb (concat ls)))
      end
    end
  else None.

(** ** adjust_length_of_fock_state, lines 844-903 *)
(** The shape after adjust_length_of_fock_state, collection_of_states.py:844-903. *)
Definition adjusted_dims (D : dims) (L' : nat) : dims := Dims L' (dN D) (dLeft D).
(** The renamed components, collection_of_states.py:844-903. *)
Definition adjust_components (D : dims) (L' : nat) (cs : list (name * (C * R))) : list (name * (C * R)) :=
  dict_of leqb (map (fun c =>
    (name_string (adjusted_dims D L') (map (fun v => v mod L') (values_of_name D (fst c))), snd c)) cs).
(** One state of the loop, collection_of_states.py:844-903. *)
Definition adjust_state (D : dims) (eps : R) (ncl L' : nat) (st : state) : option state :=
  make_state eps ncl (with_comps st (adjust_components D L' (s_comps st))).
(** new_length 0 means: keep the length. *)
(** adjust_length_of_fock_state, collection_of_states.py:844-903. *)
Definition adjust_length (L' : nat) (cs : coll) : option coll :=
  let L' := if L' =? 0 then dL (co_D cs) else L' in
  match option_list (map (fun it => option_map (fun s => (fst it, s))
          (adjust_state (co_D cs) (co_eps cs) (co_ncl cs) L' (snd it))) (co_items cs)) with
  | None => None
  | Some its => Some (Coll (adjusted_dims (co_D cs) L') (co_ncl cs) (co_eps cs) (dict_of leqb its))
  end.

(** ** extend, lines 955-1063 *)

(** extra_channel_values, lines 1017-1027: probability and values per configuration of the
    extra channels (the dictionary labels are distinct, its values are kept as a list). *)
Definition extra_step (L : nat) (dist : list R) (acc : list (R * values)) : list (R * values) :=
  flat_map (fun pv => map (fun k => ((nth k dist 0 * fst pv)%R, snd pv ++ [k])) (seq 0 L)) acc.
(** The photon numbers of the added channels with their probabilities, collection_of_states.py:1017-1027. *)
Fixpoint extra_values (L : nat) (dist : list R) (n : nat) : list (R * values) :=
  match n with
  | O => [(1%R, [])]
  | S k => extra_step L dist (extra_values L dist k)
  end.
(** The default statistical distribution, collection_of_states.py:1017-1027. *)
Definition default_distribution (L : nat) : list R := map (fun k => if k =? 0 then 1%R else 0%R) (seq 0 L).
(** The shape after extend, collection_of_states.py:955-1063. *)
Definition extended_dims (D : dims) (k : nat) : dims := Dims (dL D) (dN D + k) (dLeft D).

(** The extended component names, collection_of_states.py:1030-1053. *)
Definition extend_components (D : dims) (extra : values) (cs : list (name * (C * R))) : list (name * (C * R)) :=
  dict_of leqb (map (fun c =>
    (name_string (extended_dims D (length extra)) (values_of_name D (fst c) ++ extra), snd c)) cs).

(** The new state for one configuration, lines 1030-1053. *)
Definition extended_state (D : dims) (p : R) (extra : values) (kcl : nat) (st : state) : state :=
  State (s_init st) (s_cum st * p) (extend_components D extra (s_comps st))
        (s_classical st ++ repeat 0%R kcl) (s_results st) (s_aux st).

(** None inside: State(...) raises; states below the threshold are skipped (line 1051). *)
Definition extend_step (D : dims) (eps : R) (ncl' kcl : nat) (rnd : nat -> nat)
    (acc : option (items * nat)) (pvs : (R * values) * state) : option (items * nat) :=
  match acc with
  | None => None
  | Some (its, seed) =>
      let st := extended_state D (fst (fst pvs)) (snd (fst pvs)) kcl (snd pvs) in
      if Rle_dec eps (s_cum st) then
        match make_state eps ncl' st with
        | None => None
        | Some s => Some (add_state_random rnd seed s its)
        end
      else Some (its, seed)
  end.

(** extend, collection_of_states.py:955-1063. *)
Definition extend (rnd : nat -> nat) (seed : nat) (k kcl : nat) (dist : list R) (cs : coll)
  : option (coll * nat) :=
  let D := co_D cs in
  let od := match dist with
            | [] => Some (default_distribution (dL D))
            | _ => if length dist =? dL D then Some dist else None
            end in
  match od with
  | None => None
  | Some d =>
    if (k =? 0) && (kcl =? 0) then Some (cs, seed)
    else
      match fold_left (extend_step D (co_eps cs) (co_ncl cs + kcl) kcl rnd)
              (list_prod (extra_values (dL D) d k) (map snd (co_items cs))) (Some ([], seed)) with
      | None => None
      | Some (its, seed') => Some (Coll (extended_dims D k) (co_ncl cs + kcl) (co_eps cs) its, seed')
      end
  end.

(** ** clean_up *)

(** _rescale_optical_components, state.py:569-592: below-threshold components are set to zero;
    if the remaining total differs from 1 by at least eps everything is rescaled and components
    below the threshold are dropped. A total of 0 (ZeroDivisionError) gives None. *)
Definition rescale_components (eps : R) (cs : list (name * (C * R))) : option (list (name * (C * R))) :=
  let zeroed := map (fun c => if Rlt_dec (snd (snd c)) eps then (fst c, (RtoC 0, 0%R)) else c) cs in
  let total := Rsum (filter (fun c => if Rlt_dec (snd (snd c)) eps then false else true) cs)
                    (fun c => Cnorm2 (fst (snd c))) in
  if Rle_dec eps (Rabs (total - 1)) then
    if Req_EM_T total 0 then None
    else
      let sc := (1 / sqrt total)%R in
      Some (flat_map (fun c =>
              let a := (RtoC sc * fst (snd c))%C in
              if Rle_dec eps (Cnorm2 a) then [(fst c, (a, Cnorm2 a))] else []) zeroed)
  else Some zeroed.

(** _identical_optical_components, state.py:594-614 (self first, then the other). *)
Definition identical_components (eps : R) (oc other : list (name * (C * R))) : bool :=
  forallb (fun c => match dget leqb (fst c) other with
                    | None => false
                    | Some ap => negb (Rleb eps (Rabs (snd (snd c) - snd ap)))
                                 && negb (Rleb eps (Cnorm2 (fst (snd c) - fst ap)%C))
                    end) oc.

(** The first loop of clean_up for one initial_state, lines 930-942: the items with rescaled
    components and the dictionary leader -> identifiers with the same components. *)
Fixpoint find_leader (eps : R) (its : items) (oc : list (name * (C * R)))
    (groups : list (ident * list ident)) : option ident :=
  match groups with
  | [] => None
  | (l, _) :: r => match dget leqb l its with
                   | Some st' => if identical_components eps oc (s_comps st') then Some l
                                 else find_leader eps its oc r
                   | None => find_leader eps its oc r
                   end
  end.
(** The loop over the states with one initial_state, collection_of_states.py:930-942. *)
Definition cleanup_scan (eps : R) (init : ident)
    (acc : option (items * list (ident * list ident))) (i : ident)
  : option (items * list (ident * list ident)) :=
  match acc with
  | None => None
  | Some (its, groups) =>
      match dget leqb i its with
      | None => acc
      | Some st =>
          if leqb (s_init st) init then
            match rescale_components (eps) (s_comps st) with
            | None => None
            | Some oc =>
                let its' := dset leqb i (with_comps st oc) its in
                match find_leader eps its' oc groups with
                | Some l => Some (its', dappend leqb l i groups)
                | None => Some (its', dset leqb i [] groups)
                end
            end
          else acc
      end
  end.
(** The second loop, lines 944-951. None: the setter raises for a total outside [0,1]. *)
Definition cleanup_merge (eps : R) (acc : option items) (g : ident * list ident) : option items :=
  match acc with
  | None => None
  | Some its =>
      match dget leqb (fst g) its with
      | None => Some its
      | Some st =>
          let total := fold_left (fun t j => match dget leqb j its with
                                             | Some s => (t + s_cum s)%R | None => t end)
                                 (snd g) (s_cum st) in
          let its' := fold_left (fun d j => ddel leqb j d) (snd g) its in
          if Rle_dec eps total then
            option_map (fun s => dset leqb (fst g) s its') (set_cumulative st total)
          else Some (ddel leqb (fst g) its')
      end
  end.
(** One round of the outer loop, collection_of_states.py:925-951. *)
Definition cleanup_label (eps : R) (acc : option items) (init : ident) : option items :=
  match acc with
  | None => None
  | Some its =>
      match fold_left (cleanup_scan eps init) (dkeys its) (Some (its, [])) with
      | None => None
      | Some (its', groups) => fold_left (cleanup_merge eps) groups (Some its')
      end
  end.
(** clean_up, lines 906-953; [labels] is the set of initial states in the order Python's set
    happens to enumerate them. *)
Definition clean_up (labels : list ident) (cs : coll) : option coll :=
  option_map (with_items cs) (fold_left (cleanup_label (co_eps cs)) labels (Some (co_items cs))).

(** ** Products of states *)

(** inner, state.py:616-631. *)
Definition inner (st1 st2 : state) : C :=
  Csum (s_comps st1) (fun c1 => Csum (s_comps st2) (fun c2 =>
    if leqb (fst c1) (fst c2) then (Cconj (fst (snd c1)) * fst (snd c2))%C else RtoC 0)).

(** outer, state.py:633-644. *)
Definition outer (D : dims) (st1 st2 : state) : mat :=
  fun i j => (Cconj (state_vector D st1 i) * state_vector D st2 j)%C.

(** tensor with a State argument, state.py:663-677: the new names use the Fock length of self.
    None: a photon number of the argument does not exist in the new circuit. *)
Definition tensor_dims (D1 D2 : dims) : dims := Dims (dL D1) (dN D1 + dN D2) (dLeft D1).
(** tensor with a State, state.py:646-677. *)
Definition tensor_state (D1 D2 : dims) (st1 st2 : state) : option (list (name * (C * R))) :=
  match option_list (flat_map (fun c1 => map (fun c2 =>
      let a := (fst (snd c1) * fst (snd c2))%C in
      option_map (fun nm => (nm, (a, Cnorm2 a)))
        (name_of_values (tensor_dims D1 D2) (values_of_name D1 (fst c1) ++ values_of_name D2 (fst c2))))
     (s_comps st2)) (s_comps st1)) with
  | None => None
  | Some l => Some (dict_of leqb l)
  end.
(** tensor with a list of (name, amplitude) tuples, state.py:679-690. *)
Definition tensor_list (left : bool) (st1 : state) (l2 : list (name * C)) : list (name * (C * R)) :=
  dict_of leqb (flat_map (fun c1 => map (fun c2 =>
      let a := (fst (snd c1) * snd c2)%C in
      ((if left then fst c1 ++ fst c2 else fst c2 ++ fst c1), (a, Cnorm2 a))) l2) (s_comps st1)).
(** tensor with a dictionary of optical components, state.py:692-701 (the stored probabilities of
    the argument are not used). *)
Definition tensor_dict (left : bool) (st1 : state) (d2 : list (name * (C * R))) : list (name * (C * R)) :=
  dict_of leqb (flat_map (fun c1 => map (fun c2 =>
      let a := (fst (snd c1) * fst (snd c2))%C in
      ((if left then fst c1 ++ fst c2 else fst c2 ++ fst c1), (a, Cnorm2 a))) d2) (s_comps st1)).
