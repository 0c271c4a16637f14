(** Model of component names, photon-number tuples and basis indices.
    Source: src/fock_state_circuit/nodes/nodelist/optical_values_component_names.py
    (classes ComponentNames and OpticalValues) and nodes/nodelist/node_list.py. *)
From Coq Require Import List Arith Lia Bool.
From Verif Require Import Prelude.
Import ListNotations.

(** The parameters shared by NodeList / CollectionOfStates / State:
    length_of_fock_state, no_of_optical_channels, channel_0_left_in_state_name.
    node_list.py:76-96. *)
Record dims := Dims { dL : nat; dN : nat; dLeft : bool }.

(** node_list.py:84-85: the constructor raises unless length_of_fock_state >= 1
    and no_of_optical_channels >= 2. *)
Definition dims_ok (D : dims) : bool := (1 <=? dL D) && (2 <=? dN D).

(** A component name is a Python string of decimal digits; it is represented by
    the list of its digits, leftmost first. Strings with other characters (which
    int() rejects or interprets as sign/underscore) are not modelled. *)
(** optical_values_component_names.py:215-225. *)
Definition name := list nat.
(** A tuple of photon numbers, channel 0 first. *)
(** optical_values_component_names.py:398-409. *)
Definition values := list nat.

(** len(str(n)): optical_values_component_names.py:209, node_list.py:97. *)
Fixpoint ndigits_aux (fuel n : nat) : nat :=
  match fuel with
  | O => 1
  | S f => if n <? 10 then 1 else S (ndigits_aux f (n / 10))
  end.
(** optical_values_component_names.py:209. *)
Definition ndigits (n : nat) : nat := ndigits_aux n n.

(** digits_per_channel = len(str(length_of_fock_state-1)), line 209. *)
Definition digits_per_channel (D : dims) : nat := ndigits (dL D - 1).

(** "{:0wd}".format(n), lines 210-211, for n < 10^w (always the case for the
    entries of tuple_of_strings). *)
Definition pad (w n : nat) : list nat :=
  map (fun k => (n / 10 ^ (w - 1 - k)) mod 10) (seq 0 w).

(** int(chunk), line 220. *)
Definition parse (chunk : list nat) : nat :=
  fold_left (fun a d => 10 * a + d) chunk 0.

(** component_name[a:a+w] for a in range(0,len(component_name),w), line 220. *)
Fixpoint chunks_aux (fuel w : nat) (l : list nat) : list (list nat) :=
  match fuel with
  | O => []
  | S f => match l with
           | [] => []
           | _ => firstn w l :: chunks_aux f w (skipn w l)
           end
  end.
(** optical_values_component_names.py:220. *)
Definition chunks (w : nat) (l : list nat) := chunks_aux (length l) w l.

(** The uncached translation name -> photon numbers, lines 220-222. *)
Definition values_of_name (D : dims) (nm : name) : values :=
  let t := map parse (chunks (digits_per_channel D) nm) in
  if dLeft D then t else rev t.

(** ''.join([tuple_of_strings[number] for number in ...]) without the IndexError
    check, lines 238/240/280/282/403/405. *)
Definition name_string (D : dims) (vs : values) : name :=
  concat (map (pad (digits_per_channel D)) (if dLeft D then vs else rev vs)).

(** The uncached translation photon numbers -> name, lines 402-405.
    None: tuple_of_strings[number] raises IndexError for number >= L. *)
Definition name_of_values (D : dims) (vs : values) : option name :=
  if forallb (fun v => v <? dL D) vs then Some (name_string D vs) else None.

(** _values_from_index, lines 227-228. *)
Definition values_from_index (D : dims) (i : nat) : values :=
  map (fun c => (i / dL D ^ c) mod dL D) (seq 0 (dN D)).

(** sum([value*(L**index) for index,value in enumerate(values)]), lines 272, 436. *)
Fixpoint index_from (L c : nat) (vs : values) : nat :=
  match vs with
  | [] => 0
  | v :: r => v * L ^ c + index_from L (S c) r
  end.
(** optical_values_component_names.py:435-436. *)
Definition index_of_values (D : dims) (vs : values) : nat := index_from (dL D) 0 vs.

(** size_of_basis, line 212. *)
Definition size_of_basis (D : dims) : nat := dL D ^ dN D.

(** at_index (component name), lines 274-283. *)
Definition at_index (D : dims) (i : nat) : name := name_string D (values_from_index D i).

(** OpticalValues.reorder, lines 445-454. *)
Definition reorder (D : dims) (vs : values) (tensor_list : list nat) : nat :=
  index_of_values D (map (fun i => nth i vs 0) tensor_list).

(** The pairs enumerated by a fresh __iter__, lines 236-240. *)
Definition basis_items (D : dims) : list (name * values) :=
  map (fun i => (name_string D (values_from_index D i), values_from_index D i))
      (seq 0 (size_of_basis D)).

(** OpticalValues.__contains__, line 421; ComponentNames.__contains__, line 246. *)
Definition contains_values (D : dims) (vs : values) : bool :=
  (length vs =? dN D) && forallb (fun v => v <? dL D) vs.

(** * The name tables as mutable caches

    ComponentNames and OpticalValues each have attributes dict_of_optical_values
    and dict_of_valid_component_names. OpticalValues.__init__ (line 392) takes the
    SAME two dict objects as ComponentNames; __iter__ of either class may rebind
    ONE of its own attributes to a fresh dict (lines 238/240 and 414).
    [k_vals], [k_names]: the two original, shared objects.
    [k_cn]: the dict ComponentNames.dict_of_valid_component_names was rebound to.
    [k_ov]: the dict OpticalValues.dict_of_optical_values was rebound to. *)
Record cache := Cache {
  k_vals : list (values * name);
  k_names : list (name * values);
  k_cn : option (list (name * values));
  k_ov : option (list (values * name)) }.

(** ComponentNames.dict_of_valid_component_names. *)
(** optical_values_component_names.py:203-213. *)
Definition cn_names (s : cache) : list (name * values) :=
  match k_cn s with Some d => d | None => k_names s end.
(** OpticalValues.dict_of_optical_values. *)
(** optical_values_component_names.py:385-396. *)
Definition ov_vals (s : cache) : list (values * name) :=
  match k_ov s with Some d => d | None => k_vals s end.

(** self.dict_of_valid_component_names.update(...) on ComponentNames. *)
(** optical_values_component_names.py:215-241. *)
Definition cn_update (nm : name) (vs : values) (s : cache) : cache :=
  match k_cn s with
  | Some d => Cache (k_vals s) (k_names s) (Some (dset leqb nm vs d)) (k_ov s)
  | None => Cache (k_vals s) (dset leqb nm vs (k_names s)) None (k_ov s)
  end.
(** self.dict_of_optical_values.update(...) on OpticalValues. *)
(** optical_values_component_names.py:398-415. *)
Definition ov_update (vs : values) (nm : name) (s : cache) : cache :=
  match k_ov s with
  | Some d => Cache (k_vals s) (k_names s) (k_cn s) (Some (dset leqb vs nm d))
  | None => Cache (dset leqb vs nm (k_vals s)) (k_names s) (k_cn s) None
  end.
(** update of the shared original objects: ComponentNames.dict_of_optical_values
    (line 224) and OpticalValues.dict_of_valid_component_names (line 408) are never rebound. *)
Definition orig_vals_update (vs : values) (nm : name) (s : cache) : cache :=
  Cache (dset leqb vs nm (k_vals s)) (k_names s) (k_cn s) (k_ov s).
(** optical_values_component_names.py:408. *)
Definition orig_names_update (nm : name) (vs : values) (s : cache) : cache :=
  Cache (k_vals s) (dset leqb nm vs (k_names s)) (k_cn s) (k_ov s).

(** ComponentNames.__getitem__, lines 215-225. *)
Definition cn_getitem (D : dims) (nm : name) (s : cache) : values * cache :=
  match dget leqb nm (cn_names s) with
  | Some vs => (vs, s)
  | None => let vs := values_of_name D nm in
            (vs, orig_vals_update vs nm (cn_update nm vs s))
  end.

(** OpticalValues.__getitem__, lines 398-409. None: IndexError. *)
Definition ov_getitem (D : dims) (vs : values) (s : cache) : option name * cache :=
  match dget leqb vs (ov_vals s) with
  | Some nm => (Some nm, s)
  | None => match name_of_values D vs with
            | None => (None, s)
            | Some nm => (Some nm, orig_names_update nm vs (ov_update vs nm s))
            end
  end.

(** ComponentNames.__iter__ (effect only), lines 230-242. *)
Definition cn_iter (D : dims) (s : cache) : cache :=
  if length (cn_names s) =? size_of_basis D then s
  else Cache (k_vals s) (k_names s) (Some (dict_of leqb (basis_items D))) (k_ov s).

(** ComponentNames.keys(), lines 252-255. *)
Definition cn_keys (D : dims) (s : cache) : list name * cache :=
  let s' := cn_iter D s in (dkeys (cn_names s'), s').

(** OpticalValues.__iter__ (effect only), lines 411-415. *)
Definition ov_iter (D : dims) (s : cache) : cache :=
  if length (ov_vals s) =? size_of_basis D then s
  else let s' := cn_iter D s in
       Cache (k_vals s') (k_names s') (k_cn s')
             (Some (dict_of leqb (map (fun kv => (snd kv, fst kv)) (cn_names s')))).

(** OpticalValues.keys(), lines 423-425. *)
Definition ov_keys (D : dims) (s : cache) : list values * cache :=
  let s' := ov_iter D s in (dkeys (ov_vals s'), s').

(** ComponentNames.__contains__, lines 243-246. *)
Definition cn_contains (D : dims) (nm : name) (s : cache) : bool * cache :=
  let (vs, s') := cn_getitem D nm s in (contains_values D vs, s').

(** ComponentNames.index_of, lines 267-272. *)
Definition cn_index_of (D : dims) (nm : name) (s : cache) : nat * cache :=
  let (vs, s') := cn_getitem D nm s in (index_of_values D vs, s').

(** A freshly constructed NodeList: ComponentNames/OpticalValues constructors
    (lines 203-213, 385-396) followed by the look-up of the vacuum component in
    node_list.py:134. *)
Definition cache_init (D : dims) : cache :=
  snd (ov_getitem D (repeat 0 (dN D)) (Cache [] [] None None)).

(** One API call on the tables. *)
(** optical_values_component_names.py:215-283 and 398-442. *)
Inductive name_op :=
| OpName (nm : name)      (* circuit._dict_of_valid_component_names[nm] *)
| OpContains (nm : name)  (* nm in circuit._dict_of_valid_component_names *)
| OpIndex (nm : name)     (* ..index_of(nm) *)
| OpValues (vs : values)  (* circuit._dict_of_optical_values[vs] *)
| OpNameKeys              (* circuit.basis().keys() *)
| OpValueKeys.            (* ..._dict_of_optical_values.keys() *)

(** optical_values_component_names.py:215-283 and 398-442. *)
Definition name_step (D : dims) (o : name_op) (s : cache) : cache :=
  match o with
  | OpName nm => snd (cn_getitem D nm s)
  | OpContains nm => snd (cn_contains D nm s)
  | OpIndex nm => snd (cn_index_of D nm s)
  | OpValues vs => snd (ov_getitem D vs s)
  | OpNameKeys => snd (cn_keys D s)
  | OpValueKeys => snd (ov_keys D s)
  end.

(** A sequence of such calls; optical_values_component_names.py:215-442. *)
Definition name_run (D : dims) (h : list name_op) (s : cache) : cache :=
  fold_left (fun s o => name_step D o s) h s.
