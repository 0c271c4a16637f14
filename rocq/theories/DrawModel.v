(** Model of the layout computed by [draw] (visualization/draw.py): where the nodes of a circuit, or of a chain of
    circuits connected by bridges, are put in the figure.  The calls to matplotlib (lines, markers, texts, colours)
    are not modelled, except where the code fails before reaching them or covers what was drawn. *)
From Coq Require Import List String Arith NArith Bool Lia.
Import ListNotations.

(** What [draw] reads of a node: nodes/*.py ('node_type', 'node_info'), visualization/draw.py:67-92 (defaults),
    lines 144-155, 173-192.  [d_bridge]: the node type is 'bridge'; [d_optical], [d_classical]: the channels of the node
    (natural numbers: negative channel numbers are not modelled); [d_gate]: the entry 'combined_gate', "single" by
    default; [d_linked]: one of the lists in 'connections_to_other_stations' is not empty. *)
Record drawn := Drawn { d_bridge : bool; d_optical : list nat; d_classical : list nat; d_gate : string; d_linked : bool }.

(** A circuit as [draw] sees it: circuit.py:173-260 ('_no_of_optical_channels', '_no_of_classical_channels') and its
    'node_list'. *)
Record sheet := Sheet { sh_optical : nat; sh_classical : nat; sh_nodes : list drawn }.

(** The settings that decide about the layout: visualization/draw.py:40-43, 946-954.  [per_line]:
    'number_of_nodes_on_a_line'; [line_width]: the target length of the channel lines, rounded down
    (100 * 'channel_line_length_as_fraction_of_figure_width'; only its quotients rounded down are used). *)
Record canvas := Canvas { per_line : nat; line_width : nat }.

(** visualization/draw.py:40-43, 945-949: the default settings, 80 units of a canvas of 100 units and 10 nodes. *)
Definition default_canvas : canvas := Canvas 10 80.

(** visualization/draw.py:951: spacing_between_nodes = floor(target_line_length / nodes_per_page). *)
Definition spacing (cv : canvas) : nat := line_width cv / per_line cv.

(** visualization/draw.py:320-321, 954: horizontal position of a node, measured from the left end of the lines in
    quarters of the unit of the canvas, and the page. *)
Record place := Place { on_page : nat; at_x : nat }.

(** visualization/draw.py:954: node_x_values[k] = line_start + (k + 0.5) * spacing, in quarters. *)
Definition node_x (cv : canvas) (k : nat) : nat := spacing cv * (4 * k + 2).

(** visualization/draw.py:935-939: the last node is a bridge. *)
Definition ends_in_bridge (c : sheet) : bool :=
  match rev (sh_nodes c) with [] => false | nd :: _ => d_bridge nd end.

(** visualization/draw.py:918-939: the circuits that belong to the compound circuit starting with the first one.
    Simplified: a chain of circuits is a list, the bridge of a circuit leads to the next one in the list; [None]: a
    bridge that leads nowhere (the code fails on the missing circuit). *)
Fixpoint chain (cs : list sheet) : option (list sheet) :=
  match cs with
  | [] => None
  | c :: rest => if ends_in_bridge c then option_map (cons c) (chain rest) else Some [c]
  end.

(** visualization/draw.py:914, 922, 937: the number of nodes, without the bridges at the ends. *)
Definition count_nodes (ch : list sheet) : nat :=
  list_sum (map (fun c => List.length (sh_nodes c) - (if ends_in_bridge c then 1 else 0)) ch).

(** visualization/draw.py:915, 932: the largest number of channels in the chain. *)
Definition lines_optical (ch : list sheet) : nat := fold_left (fun a c => Nat.max a (sh_optical c)) ch 0.
(** visualization/draw.py:916, 933. *)
Definition lines_classical (ch : list sheet) : nat := fold_left (fun a c => Nat.max a (sh_classical c)) ch 0.

(** visualization/draw.py:976-980: number of pages expected. *)
Definition expected_pages (cv : canvas) (ch : list sheet) : nat :=
  let n := count_nodes ch in
  if n mod per_line cv =? 0 then n / per_line cv else 1 + n / per_line cv.

(** Python's int(''.join(bits), 2), visualization/draw.py:231, 244, 259: the first bit is the most significant one.
    [None]: the empty string is not a number. *)
Definition int_of_bits (bits : list bool) : option N :=
  match bits with
  | [] => None
  | _ => Some (fold_left (fun acc b => (2 * acc + N.b2n b)%N) bits 0%N)
  end.

(** visualization/draw.py:242-244, 257-259: one bit per line, optical channels first. *)
Definition channel_bits (no nc : nat) (optical classical : list nat) : list bool :=
  map (fun channel => existsb (Nat.eqb channel) optical) (seq 0 no) ++
  map (fun channel => existsb (Nat.eqb channel) classical) (seq 0 nc).

(** visualization/draw.py:248-253, 261-266: the bits between occupied channels are filled up. *)
Definition fill_bits (lines : nat) (used : N) : N :=
  snd (fold_left (fun (s : bool * N) (bit_index : nat) =>
         let '(memory, occupied) := s in
         let i := N.of_nat bit_index in
         let memory := orb memory (negb (N.land used (N.shiftl 1 i) =? 0)%N) in
         let memory := andb memory (negb (N.shiftr used i =? 0)%N) in
         (memory, N.lor occupied (N.shiftl (N.b2n memory) i))) (seq 0 lines) (false, 0%N)).

(** visualization/draw.py:270-276: a node linked to another station also occupies the lines below it.  The loop stops
    at the lowest bit that is set, which exists because the number is not 0. *)
Definition linked_bits (lines : nat) (linked : bool) (occupied : N) : N :=
  if linked && negb (occupied =? 0)%N then
    match List.find (fun i => negb (N.land occupied (N.shiftl 1 (N.of_nat i)) =? 0)%N) (seq 0 lines) with
    | Some i => N.lor occupied (2 ^ N.of_nat i - 1)
    | None => occupied
    end
  else occupied.

(** visualization/draw.py:281: the lines next to the occupied ones are included. *)
Definition with_boundaries (occupied : N) : N :=
  N.lor (N.lor (N.shiftl occupied 1) occupied) (N.shiftr occupied 1).

(** visualization/draw.py:230-231: all bits are set for a bridge. *)
Definition all_bits (no nc : nat) : option N := int_of_bits (repeat true (no + nc)).

(** visualization/draw.py:236-245: the channels used by any node of a combined gate. *)
Fixpoint used_bits (no nc : nat) (nds : list drawn) : option N :=
  match nds with
  | [] => Some 0%N
  | nd :: rest =>
      match int_of_bits (channel_bits no nc (d_optical nd) (d_classical nd)), used_bits no nc rest with
      | Some a, Some b => Some (N.lor a b)
      | _, _ => None
      end
  end.

(** visualization/draw.py:294-300: go to the left from the end while the position has no channel in common. [p] is
    the position after the one that is looked at. *)
Fixpoint leftmost (occupied : N) (positions : list N) (p : nat) : nat :=
  match p with
  | 0 => 0
  | S q => if (N.land (nth q positions 0) occupied =? 0)%N then leftmost occupied positions q else p
  end.

(** visualization/draw.py:302-306: go to the right until the node fits. [rest]: the positions from [p] on. *)
Fixpoint first_fit (boundaries : N) (rest : list N) (p : nat) : nat :=
  match rest with
  | [] => p
  | o :: rest' => if (N.land o boundaries =? 0)%N then p else first_fit boundaries rest' (S p)
  end.

(** visualization/draw.py:315: the node is added to the channels occupied at its position. *)
Fixpoint occupy (p : nat) (occupied : N) (positions : list N) : list N :=
  match positions, p with
  | [], _ => []
  | o :: rest, 0 => N.lor o occupied :: rest
  | o :: rest, S q => o :: occupy q occupied rest
  end.

(** visualization/draw.py:205-214: how many nodes from here on belong to the combined gate. *)
Fixpoint gate_length (gate : string) (nds : list drawn) : nat :=
  match nds with
  | [] => 0
  | nd :: rest => if d_bridge nd then 0 else if String.eqb (d_gate nd) gate then S (gate_length gate rest) else 0
  end.

(** The variables of [draw] that live from one node to the next: 'node_positions_occupied'
    (visualization/draw.py:997), and 'page_number' with 'combined_node_x_values' (lines 343, 359-367; [None] while they
    have no value, which is so at the beginning of every circuit). *)
Record progress := Progress { positions : list N; waiting : option (nat * list nat) }.

(** visualization/draw.py:195-201: the node belongs to a combined gate, and is the first of it. *)
Definition in_gate (nd : drawn) : bool := negb (d_bridge nd) && negb (String.eqb (d_gate nd) "single").
(** visualization/draw.py:198-201. *)
Definition starts_gate (prev : option drawn) (nd : drawn) : bool :=
  in_gate nd && match prev with None => true | Some b => negb (String.eqb (d_gate b) (d_gate nd)) end.

(** visualization/draw.py:308-321: a single node that may share its column with others (lines 294-306 find the
    position). *)
Definition place_fitting (cv : canvas) (occupied : N) (pos : list N) : place * list N :=
  let p := leftmost occupied pos (List.length pos) in
  let p := first_fit (with_boundaries occupied) (skipn p pos) p in
  if List.length pos <=? p then
    (Place (List.length pos / per_line cv) (node_x cv (List.length pos mod per_line cv)), pos ++ [occupied])
  else (Place (p / per_line cv) (node_x cv (p mod per_line cv)), occupy p occupied pos).

(** visualization/draw.py:323-335: a node at the end; a bridge does not get a column of its own: the list is shortened
    at its beginning. *)
Definition place_last (cv : canvas) (bridge : bool) (occupied : N) (pos : list N) : place * list N :=
  let pos' := pos ++ [occupied] in
  (Place (List.length pos / per_line cv) (node_x cv (List.length pos mod per_line cv)),
   if bridge then tl pos' else pos').

(** visualization/draw.py:338-367: the first node of a combined gate of [n] nodes: the columns it takes and the
    positions of its nodes, two per column.  Line 360 fails if there is only one node on a line. *)
Definition place_gate (cv : canvas) (n : nat) (occupied : N) (pos : list N) : option (progress) :=
  let len := List.length pos in
  let k := len mod per_line cv in
  let columns := (1 + n) / 2 in
  let page := (len + columns) / per_line cv in
  let moved := negb (page =? len / per_line cv) in
  let pos := if moved then pos ++ repeat 0%N (per_line cv - k) else pos in
  let k := if moved then 0 else k in
  if per_line cv <=? 1 then None
  else Some (Progress (pos ++ repeat occupied columns)
         (Some (page, map (fun j => spacing cv * (4 * k + (if Nat.even n then 1 else 2) + 2 * j)) (seq 0 n)))).

(** visualization/draw.py:391-394: the next node of a combined gate takes the next of the prepared positions; it fails
    when there are none. *)
Definition next_of_gate (st : progress) : option (place * progress) :=
  match waiting st with
  | Some (page, x :: xs) => Some (Place page x, Progress (positions st) (Some (page, xs)))
  | _ => None
  end.

(** visualization/draw.py:144-394: one round of the loop over the nodes.  [prev]: the node before in the same circuit;
    [rest]: the node and its successors. *)
Definition place_node (cv : canvas) (no nc : nat) (prev : option drawn) (nd : drawn) (rest : list drawn)
    (st : progress) : option (place * progress) :=
  let n := gate_length (d_gate nd) rest in
  let first := starts_gate prev nd in
  (* lines 216-222: too long or a single node *)
  let combined := in_gate nd && negb (first && ((per_line cv <? n / 2) || (n <=? 1))) in
  if d_bridge nd then
    match all_bits no nc with
    | None => None
    | Some occupied =>
        let '(pl, pos) := place_last cv true occupied (positions st) in
        Some (pl, Progress pos (waiting st))
    end
  else if combined then
    if first then
      match used_bits no nc (firstn n rest) with
      | None => None
      | Some used =>
          let occupied := fill_bits (no + nc) used in
          (* lines 374-387: the box needs a channel *)
          if (occupied =? 0)%N then None
          else match place_gate cv n occupied (positions st) with
               | None => None
               | Some st' => next_of_gate st'
               end
      end
    else next_of_gate st
  else
    match int_of_bits (channel_bits no nc (d_optical nd) (d_classical nd)) with
    | None => None
    | Some used =>
        let occupied := linked_bits (no + nc) (d_linked nd) (fill_bits (no + nc) used) in
        let nothing := match d_optical nd, d_classical nd with [], [] => true | _, _ => false end in
        let '(pl, pos) :=
          if match prev with None => true | Some _ => false end || nothing
          then place_last cv false occupied (positions st)
          else place_fitting cv occupied (positions st) in
        Some (pl, Progress pos (waiting st))
    end.

(** visualization/draw.py:321, 335, 394 (the page must exist among the [axes] pages) and 607-608 (the channels of the
    node must exist). *)
Definition can_draw (axes no nc : nat) (nd : drawn) (pl : place) : bool :=
  (on_page pl <? axes) && forallb (fun c => c <? no) (d_optical nd) && forallb (fun c => c <? nc) (d_classical nd).

(** visualization/draw.py:144-838: the loop over the nodes of one circuit. *)
Fixpoint place_nodes (cv : canvas) (axes no nc : nat) (prev : option drawn) (nds : list drawn) (st : progress)
    : option (list place * list N) :=
  match nds with
  | [] => Some ([], positions st)
  | nd :: rest =>
      match place_node cv no nc prev nd nds st with
      | None => None
      | Some (pl, st') =>
          if can_draw axes no nc nd pl then
            match place_nodes cv axes no nc (Some nd) rest st' with
            | None => None
            | Some (pls, pos) => Some (pl :: pls, pos)
            end
          else None
      end
  end.

(** visualization/draw.py:141-142, 840-845: an empty circuit cannot be drawn; after a bridge the next circuit is drawn
    with the same positions. *)
Fixpoint place_chain (cv : canvas) (axes no nc : nat) (ch : list sheet) (pos : list N) : option (list place * list N) :=
  match ch with
  | [] => Some ([], pos)
  | c :: rest =>
      match sh_nodes c with
      | [] => None
      | nds =>
          match place_nodes cv axes no nc None nds (Progress pos None) with
          | None => None
          | Some (pls, pos') =>
              match place_chain cv axes no nc rest pos' with
              | None => None
              | Some (pls', pos'') => Some (pls ++ pls', pos'')
              end
          end
      end
  end.

(** visualization/draw.py:848-858: the last occupied column of every page, as the code collects it. *)
Definition last_columns (cv : canvas) (pos : list N) : list nat :=
  fold_left (fun acc p =>
    let page := p / per_line cv in
    let k := p mod per_line cv in
    if (nth p pos 0 =? 0)%N then acc
    else if page <? List.length acc then
      if nth page acc 0 <? k then firstn page acc ++ k :: skipn (S page) acc else acc
    else acc ++ [k]) (seq 0 (List.length pos)) [].

(** visualization/draw.py:859-890: everything to the right of the last occupied column of a page is covered, and the
    pages beyond the collected list are deleted. *)
Definition visible (cv : canvas) (pos : list N) (pl : place) : bool :=
  match nth_error (last_columns cv pos) (on_page pl) with
  | None => false
  | Some k => at_x pl <? spacing cv * (4 * k + 4)
  end.

(** visualization/draw.py:93-892: the places of all nodes of the chain, in the order of the node lists, and whether
    they are visible at the end.  [None]: [draw] raises an error.  Lines 951, 132: no nodes on a line, no page. *)
Definition draw (cv : canvas) (cs : list sheet) : option (list (place * bool)) :=
  match chain cs with
  | None => None
  | Some ch =>
      if (per_line cv =? 0) || (expected_pages cv ch =? 0) then None
      else match place_chain cv (2 * expected_pages cv ch) (lines_optical ch) (lines_classical ch) ch [] with
           | None => None
           | Some (pls, pos) => Some (map (fun pl => (pl, visible cv pos pl)) pls)
           end
  end.
