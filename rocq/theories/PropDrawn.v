(** C59: the drawing of a circuit: when it succeeds, what is visible, and where it goes wrong. *)
From Coq Require Import List String Arith NArith Bool Lia.
From Verif Require Import DrawModel DrawSpec DrawProofs LayoutProofs PropDraw DrawableProofs VisibleProofs.
Import ListNotations.

(** [draw] does not fail on any circuit, or chain of circuits, that is drawable. *)
Theorem C59_draws cv cs : drawable cv cs -> exists l, draw cv cs = Some l.
Proof.
  intros (P & LN & CN & GA & F). unfold draw. rewrite (connected_chain cs CN).
  assert (NE : exists c, In c cs /\ ends_in_bridge c = false).
  { destruct CN as (front & final & -> & _ & N). exists final. split; [apply in_or_app; right; left; reflexivity|].
    destruct (ends_in_bridge final) eqn:E; [|reflexivity]. exfalso. apply N, ends_closing, E. }
  destruct NE as (c0 & I0 & E0). pose proof F as F'. rewrite Forall_forall in F'. destruct (F' c0 I0) as (N0 & _).
  assert (CNT : 0 < count_nodes cs).
  { clear - I0 E0 N0. unfold count_nodes. induction cs as [|c cs IH]; [contradiction|]. cbn [map list_sum fold_right]. change (fold_right Nat.add 0) with list_sum.
    destruct I0 as [->|I]; [|specialize (IH I); lia]. rewrite E0. destruct (sh_nodes c0); [congruence|]. cbn [List.length]. lia. }
  assert (EX : count_nodes cs <= per_line cv * expected_pages cv cs).
  { unfold expected_pages. pose proof (Nat.div_mod (count_nodes cs) (per_line cv) ltac:(lia)). pose proof (Nat.mod_upper_bound (count_nodes cs) (per_line cv) ltac:(lia)).
    destruct (count_nodes cs mod per_line cv =? 0) eqn:E; [apply Nat.eqb_eq in E; lia | nia]. }
  replace (per_line cv =? 0) with false by (symmetry; apply Nat.eqb_neq; lia).
  replace (expected_pages cv cs =? 0) with false by (symmetry; apply Nat.eqb_neq; nia). cbn [orb].
  rewrite optical_lines_eq, classical_lines_eq.
  pose proof (solids_count cs) as SC.
  destruct (place_chain_some cv (2 * expected_pages cv cs) (optical_lines cs) (classical_lines cs) P LN cs []) as (pls & pos & ->).
  - apply Forall_forall. intros c I. destruct (F' c I) as (A & B). split; [exact A|]. split.
    + eapply Forall_impl; [|exact B]. cbv beta. intros nd (B1 & B2 & B3). split; [split; assumption | exact B3].
    + apply (gates_fit_of cv (sh_nodes c)) with (before := []); [|reflexivity]. intros before run after g E NS FR. apply (GA c before run after g I E NS FR).
  - cbn [List.length]. nia.
  - eexists; reflexivity.
Qed.
Print Assumptions C59_draws.

Lemma short_gates_of cv nds : 0 < per_line cv -> (forall before run after g, nds = before ++ run ++ after -> g <> "single"%string ->
    Forall (fun nd => d_bridge nd = false /\ d_gate nd = g) run -> List.length run <= 2 * per_line cv - 2) ->
  forall before rest prev, nds = before ++ rest -> short_gates cv prev rest.
Proof.
  intros P H before rest. revert before. induction rest as [|nd rest IH]; intros before prev E; cbn [short_gates]; [exact I|]. split.
  - intros SG. set (n := gate_length (d_gate nd) (nd :: rest)).
    pose proof (gate_run (d_gate nd) (nd :: rest)) as RUN. fold n in RUN.
    pose proof (gate_length_le (d_gate nd) (nd :: rest)) as L. fold n in L.
    specialize (H before (firstn n (nd :: rest)) (skipn n (nd :: rest)) (d_gate nd)). rewrite firstn_length_le in H by exact L.
    assert (n <= 2 * per_line cv - 2); [|lia].
    apply H; [rewrite firstn_skipn; exact E | | exact RUN].
    unfold starts_gate, in_gate in SG. apply andb_true_iff in SG. destruct SG as (SG & _). apply andb_true_iff in SG. destruct SG as (_ & SG).
    apply negb_true_iff, String.eqb_neq in SG. exact SG.
  - apply (IH (before ++ [nd])). rewrite <- app_assoc. exact E.
Qed.

Lemma forall2_at {A B} (R : A -> B -> Prop) l l' i a b : Forall2 R l l' -> nth_error l i = Some a -> nth_error l' i = Some b -> R a b.
Proof. intros F. revert i. induction F as [|x y l l' H F IH]; intros [|i] X Y; cbn in *; try discriminate; [congruence | apply (IH i X Y)]. Qed.

Lemma numbered_nodes cs : forall k, map snd (numbered k cs) = flat_map sh_nodes cs.
Proof. induction cs as [|c cs IH]; intros k; cbn [numbered flat_map map]; [reflexivity|]. rewrite map_app, map_map, IH. cbn [snd]. rewrite map_id. reflexivity. Qed.

(** Every node that is not a bridge is visible in the finished figure, if every node has a channel, and either there
    are no combined gates, or there is one circuit without bridges whose gates do not fill a whole line. *)
Theorem C59_shown cv cs l : 0 < spacing cv -> connected cs -> on_a_channel cs ->
  (forall c nd, In c cs -> In nd (sh_nodes c) -> d_gate nd = "single"%string) \/
  (gates_at_most (2 * per_line cv - 2) cs /\ forall c nd, In c cs -> In nd (sh_nodes c) -> d_bridge nd = false) ->
  draw cv cs = Some l ->
  forall i k a p v, nth_error (numbered 0 cs) i = Some (k, a) -> nth_error l i = Some (p, v) -> d_bridge a = false -> v = true.
Proof.
  intros SP CN OC MODE H i k a p v NI LI BA. unfold draw in H. rewrite (connected_chain cs CN) in H.
  destruct ((per_line cv =? 0) || (expected_pages cv cs =? 0)) eqn:Z; [discriminate|].
  apply orb_false_iff in Z. destruct Z as (P & _). apply Nat.eqb_neq in P.
  rewrite optical_lines_eq, classical_lines_eq in H.
  destruct (place_chain cv _ _ _ cs []) as [[pls pos]|] eqn:PC; [|discriminate]. inversion H; subst; clear H.
  destruct (chain_in_range _ _ _ _ _ _ _ PC) as (R & LEN).
  assert (X : exists gates, Forall (fun c => Forall (in_range (optical_lines cs) (classical_lines cs)) (sh_nodes c) /\
      Forall (node_fine (optical_lines cs) (classical_lines cs) gates) (sh_nodes c) /\ short_gates cv None (sh_nodes c)) cs).
  { rewrite Forall_forall in R. destruct MODE as [MODE|(GA & MODE)]; [exists false | exists true]; apply Forall_forall; intros c I; (split; [apply R, I|]).
    - assert (NG : forall nd, In nd (sh_nodes c) -> in_gate nd = false).
      { intros nd J. unfold in_gate. rewrite (MODE c nd I J). cbn. apply andb_false_r. }
      split; [apply Forall_forall; intros nd J; split; [apply (OC c nd I J) | apply NG, J]|].
      generalize (@None drawn). induction (sh_nodes c) as [|nd nds IH]; intros prev; cbn [short_gates]; [exact Logic.I|].
      split; [|apply IH; intros; apply NG; right; assumption]. unfold starts_gate. rewrite (NG nd (or_introl eq_refl)). discriminate.
    - split; [apply Forall_forall; intros nd J; split; [apply (OC c nd I J) | apply (MODE c nd I J)]|].
      apply (short_gates_of cv (sh_nodes c) ltac:(lia)) with (before := []); [|reflexivity]. intros before run after g E NS FR. apply (GA c before run after g I E NS FR). }
  destruct X as (gates & X).
  destruct (chain_lit cv _ _ _ gates ltac:(lia) cs [] pls pos X PC) as (U & _ & LIT).
  { destruct gates; cbn [used_columns]; [intros j J | intros c C]; cbn [List.length] in *; lia. }
  rewrite nth_error_map in LI. destruct (nth_error pls i) as [pl|] eqn:EP; [|discriminate]. inversion LI; subst.
  assert (NI' : nth_error (flat_map sh_nodes cs) i = Some a) by (rewrite <- (numbered_nodes cs 0), nth_error_map, NI; reflexivity).
  destruct (forall2_at _ _ _ i a p LIT NI' EP) as [Y|Y]; [congruence|].
  apply lit_visible; auto; [lia | apply (used_starts cv gates), U].
Qed.
Print Assumptions C59_shown.

(** ** Where it goes wrong *)

(** The nodes of a non-polarizing beam splitter: nodes/optical_nodes.py, 'non_polarizing_50_50_beamsplitter'. *)
Definition beam_splitter : list drawn := [Drawn false [0; 2] [] "NPBS" false; Drawn false [1; 3] [] "NPBS" false].
Fixpoint in_a_row (n : nat) (nds : list drawn) : list drawn := match n with 0 => [] | S m => nds ++ in_a_row m nds end.
Definition beam_splitters (n : nat) : list sheet := [Sheet 4 0 (in_a_row n beam_splitter)].

(** Eleven beam splitters in a row cannot be drawn with the default settings, although ten can: the code recognises
    that the gate is too long for a line (and, according to its comment, treats the nodes individually), but does so
    only for the first node of the gate. *)
Theorem C59_beam_splitters_refuted :
  (exists l, draw default_canvas (beam_splitters 10) = Some l) /\ draw default_canvas (beam_splitters 11) = None /\
  Forall (fun nd => Forall (fun c => c < 4) (d_optical nd)) (in_a_row 11 beam_splitter).
Proof.
  split; [|split; [vm_compute; reflexivity|]].
  - destruct (draw default_canvas (beam_splitters 10)) as [l|] eqn:E; [exists l; reflexivity|]. vm_compute in E. discriminate.
  - repeat constructor.
Qed.
Print Assumptions C59_beam_splitters_refuted.

(** Ten beam splitters as the first elements: the first page stays empty. *)
Theorem C59_empty_page_refuted :
  exists l, draw default_canvas (beam_splitters 10) = Some l /\ Forall (fun x => on_page (fst x) = 1) l.
Proof.
  destruct (draw default_canvas (beam_splitters 10)) as [l|] eqn:E; [|vm_compute in E; discriminate]. exists l. split; [reflexivity|].
  vm_compute in E. inversion E. repeat constructor.
Qed.
Print Assumptions C59_empty_page_refuted.

Definition one_node (gate : string) : drawn := Drawn false [0] [] gate false.

(** Without the bound on the length of a gate the order can be wrong: the last of five nodes of a gate that starts at
    the second of two columns is drawn to the right of the node that follows it on the same channel. *)
Theorem C59_order_refuted :
  let cv := Canvas 2 80 in
  let cs := [Sheet 1 0 (one_node "single" :: in_a_row 5 [one_node "gate"] ++ [one_node "single"])] in
  exists l p v q w, connected cs /\ 0 < spacing cv /\ draw cv cs = Some l /\ gates_at_most (2 * per_line cv + 1) cs /\
    nth_error l 5 = Some (p, v) /\ nth_error l 6 = Some (q, w) /\ ~ read_before p q.
Proof.
  cbv zeta. destruct (draw (Canvas 2 80) _) as [l|] eqn:E; [|vm_compute in E; discriminate].
  vm_compute in E. inversion E; subst; clear E. eexists _, _, _, _, _.
  split; [|split; [vm_compute; lia | split; [reflexivity | split; [|split; [reflexivity | split; [reflexivity|]]]]]].
  - exists [], (Sheet 1 0 (one_node "single" :: in_a_row 5 [one_node "gate"] ++ [one_node "single"])). split; [reflexivity|]. split; [constructor|].
    intros C. apply closed_closing, ends_closing in C. vm_compute in C. discriminate.
  - intros c before run after g [<-|[]] EQ NS F. cbn [sh_nodes] in EQ.
    assert (SUB : incl run (filter (fun nd => String.eqb (d_gate nd) g) (one_node "single" :: in_a_row 5 [one_node "gate"] ++ [one_node "single"]))) by (intros x X; apply filter_In; rewrite Forall_forall in F; split; [rewrite EQ; apply in_or_app; right; apply in_or_app; left; exact X | apply String.eqb_eq, F, X]).
    assert (LEN : List.length run <= List.length (filter (fun nd => String.eqb (d_gate nd) g) (one_node "single" :: in_a_row 5 [one_node "gate"] ++ [one_node "single"]))).
    { rewrite EQ, !filter_app, !app_length. replace (filter (fun nd => String.eqb (d_gate nd) g) run) with run; [lia|].
      clear - F. induction F as [|x l (A & B) F IH]; cbn [filter]; [reflexivity|]. apply String.eqb_eq in B. rewrite B, <- IH. reflexivity. }
    etransitivity; [exact LEN|]. cbn [in_a_row app filter one_node d_gate]. destruct (String.eqb "single" g) eqn:E1; [apply String.eqb_eq in E1; congruence|].
    destruct (String.eqb "gate" g); cbn; lia.
  - unfold read_before. vm_compute. lia.
Qed.
Print Assumptions C59_order_refuted.

(** Ten nodes without a channel, followed by a beam splitter: the page of the beam splitter is deleted. *)
Theorem C59_shown_refuted :
  let cs := [Sheet 4 0 (in_a_row 10 [Drawn false [] [] "single" false] ++ beam_splitter)] in
  exists l p v, connected cs /\ draw default_canvas cs = Some l /\ nth_error l 10 = Some (p, v) /\ v = false.
Proof.
  cbv zeta. destruct (draw default_canvas _) as [l|] eqn:E; [|vm_compute in E; discriminate].
  vm_compute in E. inversion E; subst; clear E. eexists _, _, _. split; [|split; [reflexivity | split; reflexivity]].
  eexists [], _. split; [reflexivity|]. split; [constructor|]. intros C. apply closed_closing, ends_closing in C. vm_compute in C. discriminate.
Qed.
Print Assumptions C59_shown_refuted.

(** With more nodes on a line than the line has units, the nodes are drawn on top of each other. *)
Theorem C59_spacing_refuted :
  let cv := Canvas 81 80 in let cs := [Sheet 1 0 [one_node "single"; one_node "single"]] in
  exists l p v q w, draw cv cs = Some l /\ nth_error l 0 = Some (p, v) /\ nth_error l 1 = Some (q, w) /\ p = q.
Proof.
  cbv zeta. destruct (draw (Canvas 81 80) _) as [l|] eqn:E; [|vm_compute in E; discriminate].
  vm_compute in E. inversion E; subst; clear E. eexists _, _, _, _, _. split; [reflexivity|]. split; [reflexivity|]. split; reflexivity.
Qed.
Print Assumptions C59_spacing_refuted.

(** ** Examples *)

(** Two circuits connected by a bridge, with a beam splitter, nodes that share a column and a measurement. *)
Definition two_circuits : list sheet :=
  [Sheet 4 1 (beam_splitter ++ [Drawn false [0] [] "single" false; Drawn false [3] [] "single" false; Drawn false [1] [0] "single" false;
              Drawn true [] [] "single" false]);
   Sheet 2 2 [Drawn false [0; 1] [] "single" false; Drawn false [0] [1] "single" true]].

Lemma two_connected : connected two_circuits.
Proof.
  eexists [_], _. split; [reflexivity|]. split.
  - constructor; [|constructor]. eexists [_; _; _; _; _], _. split; reflexivity.
  - intros C. apply closed_closing, ends_closing in C. vm_compute in C. discriminate.
Qed.

Lemma two_gates n : 2 <= n -> gates_at_most n two_circuits.
Proof.
  intros N c before run after g I EQ NS F.
  assert (LEN : List.length run <= List.length (filter (fun nd => String.eqb (d_gate nd) g) (sh_nodes c))).
  { rewrite EQ, !filter_app, !app_length. replace (filter (fun nd => String.eqb (d_gate nd) g) run) with run; [lia|].
    clear - F. induction F as [|x l (A & B) F IH]; cbn [filter]; [reflexivity|]. apply String.eqb_eq in B. rewrite B, <- IH. reflexivity. }
  etransitivity; [exact LEN|]. assert (E1 : String.eqb "single" g = false) by (apply String.eqb_neq; congruence).
  destruct I as [<-|[<-|[]]]; cbn -[String.eqb]; rewrite ?E1; destruct (String.eqb "NPBS" g); cbn; lia.
Qed.

Example C59_draws_case : drawable default_canvas two_circuits.
Proof.
  split; [cbn; lia|]. split; [cbn; lia|]. split; [exact two_connected|]. split; [apply two_gates; cbn; lia|].
  change (optical_lines two_circuits) with 4. change (classical_lines two_circuits) with 2. unfold two_circuits, beam_splitter. cbn [app].
  repeat (apply Forall_cons || apply Forall_nil || split); cbn; try discriminate; try lia; try congruence; intros; try (left; discriminate); exfalso; apply H; reflexivity.
Qed.

(** The third and fourth node share a column, the others do not; all are visible. *)
Example C59_case : exists l, draw default_canvas two_circuits = Some l /\ 0 < spacing default_canvas /\ connected two_circuits /\
  gates_at_most (2 * per_line default_canvas) two_circuits /\
  map (fun x => at_x (fst x)) l = [8; 24; 48; 48; 80; 112; 112; 144] /\ map snd l = [true; true; true; true; true; true; true; true].
Proof.
  destruct (draw default_canvas two_circuits) as [l|] eqn:E; [|vm_compute in E; discriminate]. exists l. split; [reflexivity|].
  split; [cbn; lia|]. split; [exact two_connected|]. split; [apply two_gates; cbn; lia|].
  vm_compute in E. inversion E. split; reflexivity.
Qed.

(** A single circuit with a gate, as in C59_shown. *)
Example C59_shown_case : exists l, on_a_channel (beam_splitters 9) /\ draw default_canvas (beam_splitters 9) = Some l /\
  List.length l = 18 /\ (forall c nd, In c (beam_splitters 9) -> In nd (sh_nodes c) -> d_bridge nd = false).
Proof.
  destruct (draw default_canvas (beam_splitters 9)) as [l|] eqn:E; [|vm_compute in E; discriminate]. exists l.
  assert (A : forall n nd, In nd (in_a_row n beam_splitter) -> nd = Drawn false [0; 2] [] "NPBS" false \/ nd = Drawn false [1; 3] [] "NPBS" false).
  { induction n as [|n IH]; intros nd I; [contradiction|]. cbn [in_a_row beam_splitter app] in I. destruct I as [<-|[<-|I]]; auto. }
  split; [|split; [reflexivity|split]].
  - intros c nd [<-|[]] J _. destruct (A _ _ J) as [->| ->]; left; discriminate.
  - vm_compute in E. inversion E. reflexivity.
  - intros c nd [<-|[]] J. destruct (A _ _ J) as [->| ->]; reflexivity.
Qed.
