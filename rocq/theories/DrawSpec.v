(** What a reader expects of the drawing of a circuit, without reference to how the layout is computed. *)
From Coq Require Import List String Arith Bool Lia.
From Verif Require Import DrawModel.
Import ListNotations.

(** A chain of circuits: every circuit but the last one ends with a bridge (to the next one). *)
Definition closed_by_bridge (c : sheet) : Prop :=
  exists nds b, sh_nodes c = nds ++ [b] /\ d_bridge b = true.
Definition connected (cs : list sheet) : Prop :=
  exists front final, cs = front ++ [final] /\ Forall closed_by_bridge front /\ ~ closed_by_bridge final.

(** All nodes, in the order in which they are executed, each with the number of its circuit. *)
Fixpoint numbered (k : nat) (cs : list sheet) : list (nat * drawn) :=
  match cs with
  | [] => []
  | c :: rest => map (pair k) (sh_nodes c) ++ numbered (S k) rest
  end.

(** The first place is read before the second one: on an earlier page, or further left on the same page. *)
Definition read_before (p q : place) : Prop :=
  on_page p < on_page q \/ (on_page p = on_page q /\ at_x p < at_x q).

(** The two nodes have an optical or a classical channel in common. *)
Definition share_channel (a b : drawn) : Prop :=
  exists c, (In c (d_optical a) /\ In c (d_optical b)) \/ (In c (d_classical a) /\ In c (d_classical b)).

(** The two nodes belong to gates that are to be drawn together (for example the two halves of a non-polarizing beam
    splitter). *)
Definition same_gate (a b : drawn) : Prop := d_gate a = d_gate b /\ d_gate a <> "single"%string.

(** Number of optical and classical lines in the drawing: those of the largest circuits. *)
Definition optical_lines (cs : list sheet) : nat := list_max (map sh_optical cs).
Definition classical_lines (cs : list sheet) : nat := list_max (map sh_classical cs).

(** The lines a node touches, numbered from the top: optical channels first.  A node linked to another station also
    reaches down to the last line. *)
Definition lines_of (cs : list sheet) (nd : drawn) : list nat :=
  d_optical nd ++ map (fun c => optical_lines cs + c) (d_classical nd).
Definition reach (cs : list sheet) (nd : drawn) : list nat :=
  lines_of cs nd ++
  (if d_linked nd && String.eqb (d_gate nd) "single" && negb (match lines_of cs nd with [] => true | _ => false end)
   then [optical_lines cs + classical_lines cs - 1] else []).

(** One node lies completely above or below the other one, with a free line in between. *)
Definition apart (a b : list nat) : Prop :=
  (forall l m, In l a -> In m b -> l + 1 < m) \/ (forall l m, In l a -> In m b -> m + 1 < l).

(** Two places in the same column of the same page. *)
Definition same_column (cv : canvas) (p q : place) : Prop :=
  on_page p = on_page q /\ at_x p / (4 * spacing cv) = at_x q / (4 * spacing cv).

(** Every run of nodes to be drawn together has at most [limit] nodes. *)
Definition gates_at_most (limit : nat) (cs : list sheet) : Prop :=
  forall c before run after g, In c cs -> sh_nodes c = before ++ run ++ after -> g <> "single"%string ->
    Forall (fun nd => d_bridge nd = false /\ d_gate nd = g) run -> List.length run <= limit.

(** A circuit, or a chain of circuits, that should be drawn without an error: there is at least one line and room for
    two nodes on it; every circuit has nodes, which use existing lines; a node to be drawn together with others has
    a channel, and a bridge is not drawn together with others. *)
Definition drawable (cv : canvas) (cs : list sheet) : Prop :=
  2 <= per_line cv /\ 0 < optical_lines cs + classical_lines cs /\ connected cs /\ gates_at_most (2 * per_line cv) cs /\
  Forall (fun c => sh_nodes c <> [] /\
    Forall (fun nd => Forall (fun k => k < optical_lines cs) (d_optical nd) /\ Forall (fun k => k < classical_lines cs) (d_classical nd) /\
              (d_gate nd <> "single"%string -> d_bridge nd = false /\ (d_optical nd <> [] \/ d_classical nd <> []))) (sh_nodes c)) cs.

(** Every node that is not a bridge has a channel. *)
Definition on_a_channel (cs : list sheet) : Prop :=
  forall c nd, In c cs -> In nd (sh_nodes c) -> d_bridge nd = false -> d_optical nd <> [] \/ d_classical nd <> [].
