(** What a reader expects of the figures of the stations, without reference to how they are computed. *)
From Coq Require Import List String Arith Bool Lia Sorted.
From Verif Require Import DrawModel DrawSpec StationModel.
Import ListNotations.

(** The node acts on an optical (classical) channel of the station with channels [ch]. *)
Definition optical_at (ch : list nat * list nat) (nd : part) : Prop := exists c, In c (fst ch) /\ In c (p_optical nd).
Definition classical_at (ch : list nat * list nat) (nd : part) : Prop := exists c, In c (snd ch) /\ In c (p_classical nd).
Definition acts_at (ch : list nat * list nat) (nd : part) : Prop := optical_at ch nd \/ classical_at ch nd.

(** The node connects the two stations: it acts on channels of both; a measurement connects the stations of each optical
    channel and the classical channel its result is written to. *)
Definition connects (a b : list nat * list nat) (nd : part) : Prop :=
  match p_kind nd with
  | Bridge => False
  | Measurement => exists k o c, nth_error (p_optical nd) k = Some o /\ nth_error (p_classical nd) k = Some c /\
                     (In o (fst a) \/ In c (snd a)) /\ (In o (fst b) \/ In c (snd b))
  | Other => acts_at a nd /\ acts_at b nd
  end.

(** The local channels of a node, in increasing order: those of the station on which the node acts. *)
Definition shown_channels (station node local : list nat) : Prop :=
  StronglySorted lt local /\ forall j, In j local <-> exists c, nth_error station j = Some c /\ In c node.

(** All stations a link in the figure leads to. *)
Definition leads_to (lo : local) (name : string) : Prop :=
  In name (to_classical (lo_links lo)) \/ In name (to_optical (lo_links lo)) \/ In name (to_both (lo_links lo)).

(** The stations have different names, and no channel belongs to two stations or appears twice. *)
Definition separate (pick : list nat * list nat -> list nat) (sts : stations) : Prop := NoDup (flat_map (fun s => pick (snd s)) sts).
Definition named_apart (sts : stations) : Prop := NoDup (map fst sts).

(** A chain of circuits with stations whose figures can be drawn: the circuits are connected by bridges at their ends,
    the stations have different names, none is called total_circuit, and their channels exist. *)
Definition bridges_at_end (c : plan) : Prop :=
  forall before nd after, pl_nodes c = before ++ nd :: after -> p_kind nd = Bridge -> after = [] /\ p_gate nd = "single"%string.
Definition stationed (cs : list plan) (sts : stations) : Prop :=
  connected (map total_sheet cs) /\ Forall bridges_at_end cs /\ named_apart sts /\ ~ In "total_circuit"%string (map fst sts) /\
  forall name ch, In (name, ch) sts -> Forall (fun c => c < optical_lines (map total_sheet cs)) (fst ch) /\
    Forall (fun c => c < classical_lines (map total_sheet cs)) (snd ch).
