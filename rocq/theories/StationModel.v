(** Model of the drawing by station (visualization/draw.py:1068-1335): the part of a circuit that belongs to one
    station, its links to other stations, its labels, and which stations are drawn. *)
From Coq Require Import List String Arith NArith Bool Lia DecimalString.
From Verif Require Import DrawModel.
Import ListNotations.

(** The node types that are distinguished: visualization/draw.py:1226, 1234 (and nodes/*.py, 'node_type'). *)
Inductive node_kind := Bridge | Measurement | Other.

(** visualization/draw.py:1213-1214, 1200: what is read of a node of the total circuit: its type, its channels and the
    gate it is drawn with. *)
Record part := Part { p_kind : node_kind; p_optical : list nat; p_classical : list nat; p_gate : string }.

(** A circuit of the chain: circuit.py:173-260, visualization/draw.py:1199-1207. *)
Record plan := Plan { pl_optical : nat; pl_classical : nat; pl_nodes : list part }.

(** The dictionary 'station_channels': visualization/draw.py:1077-1080, 1180-1183 (a missing list is empty); the names are
    the keys of a Python dictionary, in order. *)
Definition stations := list (string * (list nat * list nat)).

(** dict lookup: visualization/draw.py:1196-1197. *)
Definition channels_of (sts : stations) (name : string) : option (list nat * list nat) :=
  option_map snd (List.find (fun s => String.eqb (fst s) name) sts).

(** 'in' for a list of channels: visualization/draw.py:1217-1218, 1240-1247. *)
Definition member (c : nat) (l : list nat) : bool := existsb (Nat.eqb c) l.

(** visualization/draw.py:1217-1218: the positions in the list of the station of the channels of the node. *)
Definition local_channels (station node : list nat) : list nat :=
  map fst (filter (fun x => member (snd x) node) (combine (seq 0 (List.length station)) station)).

(** visualization/draw.py:1223: the dictionary 'connections_to_other_stations'. *)
Record links := Links { to_classical : list string; to_optical : list string; to_both : list string }.

(** visualization/draw.py:1234-1249: links of a measurement, pair by pair. *)
Definition measurement_links (sts : stations) (me : string) (mine : list nat * list nat) (nd : part) : links :=
  Links (flat_map (fun oc : nat * nat =>
           flat_map (fun s : string * (list nat * list nat) =>
             if String.eqb (fst s) me then []
             else if (member (fst oc) (fst mine) || member (snd oc) (snd mine)) &&
                     (member (fst oc) (fst (snd s)) || member (snd oc) (snd (snd s))) then [fst s] else [])
           sts) (combine (p_optical nd) (p_classical nd))) [] [].

(** visualization/draw.py:1287-1304: the kind of the link, from the presence of optical and classical channels here and
    there. *)
Inductive link_kind := LinkClassical | LinkOptical | LinkBoth.
(** visualization/draw.py:1286-1304. *)
Definition kind_of_link (optical_here classical_here optical_there classical_there : bool) : option link_kind :=
  if negb (optical_there || classical_there) then None
  else if classical_here && negb optical_here then Some LinkClassical
  else if classical_there && negb optical_there then Some LinkClassical
  else if (optical_here && negb classical_here) && (optical_there && negb classical_there) then Some LinkOptical
  else Some LinkBoth.

(** Is one of the channels of the node in the list of the station: visualization/draw.py:1271-1283
    (len(set(...).intersection(...)) != 0). *)
Definition present (station node : list nat) : bool := existsb (fun c => member c node) station.

(** visualization/draw.py:1251-1304: links of the other nodes.  [pick] selects the list to which the names are
    appended. *)
Definition other_names (pick : link_kind -> bool) (sts : stations) (me : string) (mine : list nat * list nat) (nd : part) : list string :=
  flat_map (fun s : string * (list nat * list nat) =>
    if String.eqb (fst s) me then []
    else match kind_of_link (present (fst mine) (p_optical nd)) (present (snd mine) (p_classical nd))
                            (present (fst (snd s)) (p_optical nd)) (present (snd (snd s)) (p_classical nd)) with
         | Some k => if pick k then [fst s] else []
         | None => []
         end) sts.

(** visualization/draw.py:1251-1304. *)
Definition other_links (sts : stations) (me : string) (mine : list nat * list nat) (nd : part) : links :=
  Links (other_names (fun k => match k with LinkClassical => true | _ => false end) sts me mine nd)
        (other_names (fun k => match k with LinkOptical => true | _ => false end) sts me mine nd)
        (other_names (fun k => match k with LinkBoth => true | _ => false end) sts me mine nd).

(** Python's len(l) != 0: visualization/draw.py:1307-1309. *)
Definition some_of (l : list string) : bool := match l with [] => false | _ => true end.

(** visualization/draw.py:1311-1313: all stations are moved to the list 'optical_and_classical' if there is a link of
    that kind, or links of both other kinds (the other lists are kept as they are). *)
Definition merge_needed (k : links) : bool := some_of (to_both k) || (some_of (to_optical k) && some_of (to_classical k)).
(** visualization/draw.py:1311-1313. *)
Definition merge_links (k : links) : links :=
  if merge_needed k then Links (to_classical k) (to_optical k) (to_both k ++ to_classical k ++ to_optical k) else k.

(** Python's sorted(set(names)): visualization/draw.py:1323-1327. *)
Fixpoint insert_name (n : string) (l : list string) : list string :=
  match l with
  | [] => [n]
  | m :: rest => if String.eqb n m then l else if String.ltb n m then n :: l else m :: insert_name n rest
  end.
(** visualization/draw.py:1323-1327. *)
Definition sorted_set (l : list string) : list string := fold_right insert_name [] l.

(** visualization/draw.py:1319-1328: the label of the link; [None] if there is none.  After lines 1311-1317 at most one of
    the three cases applies. *)
Definition link_label (k : links) : option string :=
  let text l := Some (String.append ("To station(s):" ++ String (Ascii.ascii_of_nat 10) EmptyString)%string (String.concat "," (sorted_set l))) in
  if merge_needed k then text (to_both (merge_links k))
  else if some_of (to_optical k) then text (to_optical k)
  else if some_of (to_classical k) then text (to_classical k)
  else None.

(** visualization/draw.py:1329: the code point of the marker that identifies the node at all stations. *)
Definition link_mark (node_index : nat) : nat := 1 + 16 * ((node_index + 30) / 9) + node_index mod 10.

(** visualization/draw.py:1331: the node as it is added to the circuit of the station. *)
Record local := Local { lo_kind : node_kind; lo_optical : list nat; lo_classical : list nat; lo_gate : string;
                        lo_links : links; lo_label : option string; lo_mark : option nat }.

(** visualization/draw.py:1211-1331: one round of the loop; [None]: the node is skipped (lines 1229-1232). *)
Definition local_node (sts : stations) (me : string) (mine : list nat * list nat) (i : nat) (nd : part) : option local :=
  let o := local_channels (fst mine) (p_optical nd) in
  let c := local_channels (snd mine) (p_classical nd) in
  match p_kind nd with
  | Bridge => Some (Local Bridge o c (p_gate nd) (Links [] [] []) None None)
  | kind =>
      match o, c with
      | [], [] => None
      | _, _ =>
          let k := match kind with Measurement => measurement_links sts me mine nd | _ => other_links sts me mine nd end in
          Some (Local kind o c (p_gate nd) (merge_links k) (link_label k)
                  (match link_label k with None => None | Some _ => Some (link_mark i) end))
      end
  end.

(** visualization/draw.py:1209-1335: the nodes of the circuit of the station. [i]: index of the first node. *)
Fixpoint local_nodes (sts : stations) (me : string) (mine : list nat * list nat) (i : nat) (nds : list part) : list local :=
  match nds with
  | [] => []
  | nd :: rest =>
      match local_node sts me mine i nd with
      | None => local_nodes sts me mine (S i) rest
      | Some lo => lo :: local_nodes sts me mine (S i) rest
      end
  end.

(** visualization/draw.py:1204-1205: how many different channels of the station the circuit has. *)
Definition count_channels (station : list nat) (n : nat) : nat :=
  List.length (nodup Nat.eq_dec (filter (fun c => c <? n) station)).

(** What [draw] sees of a local node: visualization/draw.py:173-192. *)
Definition drawn_local (lo : local) : drawn :=
  Drawn (match lo_kind lo with Bridge => true | _ => false end) (lo_optical lo) (lo_classical lo) (lo_gate lo)
    (some_of (to_classical (lo_links lo)) || some_of (to_optical (lo_links lo)) || some_of (to_both (lo_links lo))).

(** visualization/draw.py:1202-1207, 1332-1335: the circuits of the station (the bridges lead to the filtered circuits:
    the chain is a list, as in DrawModel). *)
Definition station_sheet (sts : stations) (me : string) (mine : list nat * list nat) (c : plan) : sheet :=
  Sheet (count_channels (fst mine) (pl_optical c)) (count_channels (snd mine) (pl_classical c))
    (map drawn_local (local_nodes sts me mine 0 (pl_nodes c))).

(** The total circuit as [draw] sees it: visualization/draw.py:67-92, 173-192 (no links to other stations). *)
Definition total_sheet (c : plan) : sheet :=
  Sheet (pl_optical c) (pl_classical c)
    (map (fun nd => Drawn (match p_kind nd with Bridge => true | _ => false end) (p_optical nd) (p_classical nd) (p_gate nd) false) (pl_nodes c)).

(** Assignment to an element of a list, visualization/draw.py:1153, 1156; fails outside of the list. *)
Fixpoint set_label (labels : list string) (i : nat) (t : string) : option (list string) :=
  match labels, i with
  | [], _ => None
  | _ :: rest, 0 => Some (t :: rest)
  | l :: rest, S j => option_map (cons l) (set_label rest j t)
  end.

(** str(n): visualization/draw.py:1153, 1156. *)
Definition number (n : nat) : string := NilZero.string_of_uint (Nat.to_uint n).

(** visualization/draw.py:1152-1157: for local_number, channel_number in enumerate(channels). *)
Fixpoint name_channels (station kind : string) (local : nat) (channels : list nat) (labels : list string) : option (list string) :=
  match channels with
  | [] => Some labels
  | c :: rest =>
      match set_label labels c (String.append station (String.append kind (number local))) with
      | None => None
      | Some labels' => name_channels station kind (S local) rest labels'
      end
  end.

(** visualization/draw.py:1149-1157: the labels of all lines of the total circuit (the user gave no labels).  The two
    kinds of labels are independent of each other. *)
Fixpoint name_all (pick : list nat * list nat -> list nat) (kind : string) (sts : stations) (labels : list string) : option (list string) :=
  match sts with
  | [] => Some labels
  | s :: rest =>
      match name_channels (fst s) kind 0 (pick (snd s)) labels with
      | None => None
      | Some labels' => name_all pick kind rest labels'
      end
  end.

(** visualization/draw.py:968-973: the default labels. *)
Definition default_labels (kind : string) (n : nat) : list string := map (fun i => String.append kind (number i)) (seq 0 n).

(** The labels of a figure: visualization/draw.py:1160-1163. *)
Record labels := Labels { optical_labels : list string; classical_labels : list string }.

(** visualization/draw.py:1128-1167: labels of the total circuit and of every station.  [None]: the name 'total_circuit' is
    reserved, a bridge leads nowhere, or a channel does not exist. *)
Definition station_settings (cs : list plan) (sts : stations) : option (labels * list (string * labels)) :=
  if existsb (fun s => String.eqb (fst s) "total_circuit") sts then None
  else match chain (map total_sheet cs) with
       | None => None
       | Some ch =>
           match name_all fst ", Opt." sts (default_labels "optical " (lines_optical ch)),
                 name_all snd ", Clas." sts (default_labels "classical " (lines_classical ch)) with
           | Some lo, Some lc =>
               Some (Labels lo lc,
                     map (fun s => (fst s, Labels (map (fun i => nth i lo EmptyString) (fst (snd s)))
                                                  (map (fun i => nth i lc EmptyString) (snd (snd s))))) sts)
           | _, _ => None
           end
       end.

(** The entry 'station_to_draw': visualization/draw.py:1095-1100. *)
Inductive selection := AllStations | OneStation (name : string) | ListOfStations (names : list string).

(** visualization/draw.py:1095-1100: the list of stations to draw. *)
Definition stations_to_draw (sts : stations) (sel : selection) : list string :=
  match sel with
  | AllStations => map fst sts
  | OneStation name => [name]
  | ListOfStations _ => map fst sts
  end.

(** One figure (visualization/draw.py:1112): the name of the station, its labels and the places of the nodes. *)
Record figure := Figure { f_station : string; f_labels : labels; f_nodes : list (place * bool) }.

(** visualization/draw.py:1106-1112: the figure of one station. *)
Definition station_figure (cv : canvas) (cs : list plan) (sts : stations) (settings : list (string * labels)) (me : string) : option figure :=
  match channels_of sts me, List.find (fun s => String.eqb (fst s) me) settings with
  | Some mine, Some (_, lab) => option_map (Figure me lab) (draw cv (map (station_sheet sts me mine) cs))
  | _, _ => None
  end.

(** visualization/draw.py:1106-1112: all or nothing, an error ends the loop. *)
Fixpoint each_figure (f : string -> option figure) (names : list string) : option (list figure) :=
  match names with
  | [] => Some []
  | n :: rest => match f n, each_figure f rest with Some x, Some l => Some (x :: l) | _, _ => None end
  end.

(** visualization/draw.py:1068-1113 ('stations' is not empty). *)
Definition draw_station (cv : canvas) (cs : list plan) (sts : stations) (sel : selection) : option (list figure) :=
  match station_settings cs sts with
  | None => None
  | Some (_, settings) => each_figure (station_figure cv cs sts settings) (stations_to_draw sts sel)
  end.
