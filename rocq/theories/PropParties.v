(** C63 and C72 for circuits as users build them, with everything a party can do in its own channels. *)
From Coq Require Import Reals List Arith Lia Lra Bool Permutation ZArith.
From Coquelicot Require Import Complex.
From Verif Require Import Prelude NamesModel NamesSpec NamesProofs FockModel FockSpec FockProofs GateProofs PropFock
  OpticalModel OpticalProofs StateModel StateSpec CollectionModel EvalModel MeasureSpec MeasureProofs
  InterferenceSpec ArrangementProofs PermanentProofs CircuitSpec CircuitProofs EnsembleProofs PropCircuit ProtocolSpec ProtocolProofs PropProtocol
  ProgramModel ProgramSpec PropProgram TsirelsonSpec TsirelsonProofs SeparableProofs PropTsirelson EntangleSpec PropEntangle PartiesSpec ApplicationSpec PropBell.
From Verif Require PropPrograms ApplyProofs PropOptical.
Import ListNotations.

(** The operations of a call, seen from a set of channels it works in. *)
Definition stands (D : dims) (S : nat -> bool) (chans : list nat) (op : operation) : Prop :=
  match op with
  | Element _ h v => In h chans /\ In v chans
  | Transform T => acts_in D S T
  | _ => True
  end.
Lemma call_stands D S i : 1 <= dL D -> (forall c, In c (instruction_channels i) -> S c = true) ->
  (forall M, i = Custom_matrix M -> acts_in D S (matrix_action D M)) ->
  forall op, In op (meaning D i) -> stands D S (instruction_channels i) op.
Proof.
  intros HL HS HM op Hop.
  destruct i as [call|c cl|h v ct cp|vals chs|fn nv chs|opt cl|targets shifts|controls targets|A h v|M]; cbn [meaning instruction_channels stands] in *.
  - destruct call; cbn [optics_meaning optics_channels In] in *; unfold plate, crossing, mixing, plate in Hop; repeat (destruct Hop as [<-|Hop]; [split; cbn [In]; try tauto|]); try destruct Hop;
      try (destruct (Nat.min_dec a b) as [->| ->]; tauto); try (destruct (Nat.max_dec a b) as [->| ->]; tauto); try (destruct (Nat.min_dec a1 b1) as [->| ->]; tauto); try (destruct (Nat.max_dec a1 b1) as [->| ->]; tauto).
  - destruct Hop as [<-|[]]. cbn; tauto.
  - destruct Hop as [<-|[]]. cbn; tauto.
  - destruct Hop as [<-|[]]. exact I.
  - destruct Hop as [<-|[]]. exact I.
  - destruct Hop as [<-|[]]. exact I.
  - destruct Hop as [<-|[]]. apply shift_acts; [exact HL|]. intros [z t] Hp. apply in_combine_r in Hp. now apply HS.
  - destruct Hop as [<-|[]]. apply control_acts; [exact HL|]. intros [a b] Hp. cbn [fst snd]. split; apply HS, in_or_app; [left; exact (in_combine_l _ _ _ _ Hp)|right; exact (in_combine_r _ _ _ _ Hp)].
  - destruct Hop as [<-|[]]. cbn; tauto.
  - destruct Hop as [<-|[]]. now apply (HM M).
Qed.
Lemma mat2_tr_unitary A : unitary2 A -> unitary2 (mat2_tr A).
Proof.
  destruct A as [a b c d]. unfold unitary2, mat2_mul, mat2_adj, mat2_id, mat2_tr. cbn [m00 m01 m10 m11].
  intros [H1 H2]. injection H1 as A1 A2 A3 A4 A5 A6 A7 A8. injection H2 as B1 B2 B3 B4 B5 B6 B7 B8.
  split; f_equal; apply C_eq; cbn in *; lra.
Qed.
Lemma means_element D ncl nd A h v : means D ncl nd (Element A h v) ->
  h <> v /\ h < dN D /\ v < dN D /\ forall r, length r = ncl -> unitary2 (A r).
Proof.
  intros H.
  assert (exists rest, Permutation (h :: v :: rest) (seq 0 (dN D))) as (rest & HP) by (inversion H; subst; eexists; eassumption).
  assert (ND : NoDup (h :: v :: rest)) by (apply (Permutation_NoDup (Permutation_sym HP)), seq_NoDup).
  split; [inversion ND as [|? ? Hn _]; subst; intros ->; apply Hn; now left|].
  split; [assert (Hin : In h (seq 0 (dN D))) by (apply (Permutation_in _ HP); now left); apply in_seq in Hin; lia|].
  split; [assert (Hin : In v (seq 0 (dN D))) by (apply (Permutation_in _ HP); right; now left); apply in_seq in Hin; lia|].
  intros r Hr. inversion H as [A0 h0 v0 rest0 HP0 HU E1 E2|t p vars h0 v0 rest0 A0 HP0 Ha E1 E2| | |]; subst.
  - now apply mat2_tr_unitary.
  - destruct (Ha r eq_refl) as (t' & p' & _ & ->). apply generic_unitary.
Qed.
Lemma call_means D ncl i nds op : 1 <= dL D -> 2 <= dN D -> nodes_of D ncl i = Some nds -> careful D ncl i -> In op (meaning D i) -> exists nd, means D ncl nd op.
Proof.
  intros HL HN E Hc. pose proof (instruction_means D ncl HL HN i nds E Hc) as HM. clear - HM. induction HM as [|nd op' l l' H HM IH]; [intros []|]. intros [<-|Hin]; [now exists nd|now apply IH].
Qed.
Lemma assigned_at_in chs : forall vals c x, assigned_at chs vals c = Some x -> In c chs.
Proof.
  induction chs as [|c' chs IH]; intros [|y vals] c x H; try discriminate. cbn in H. destruct (Nat.eqb_spec c' c) as [->|]; [now left|]. right. now apply (IH vals c x).
Qed.
Lemma assigned_outside K chs vals r : (forall c, In c chs -> K c = true) -> same_outside K (assigned chs vals r) r.
Proof.
  intros H. split; [apply assigned_length|]. intros c Hc. destruct (Nat.lt_ge_cases c (length r)) as [Hlt|Hge].
  - rewrite assigned_nth by exact Hlt. destruct (assigned_at chs vals c) eqn:E; [|reflexivity]. apply assigned_at_in in E. rewrite (H c E) in Hc. discriminate.
  - rewrite !nth_overflow; [reflexivity|exact Hge|now rewrite assigned_length].
Qed.
Lemma assigned_same K chs vals r r' : same_outside K r r' -> same_outside K (assigned chs vals r) (assigned chs vals r').
Proof.
  intros [H1 H2]. split; [now rewrite !assigned_length|]. intros c Hc. destruct (Nat.lt_ge_cases c (length r)) as [Hlt|Hge].
  - rewrite !assigned_nth by (try exact Hlt; lia). destruct (assigned_at chs vals c); [reflexivity|now apply H2].
  - rewrite !nth_overflow; [reflexivity| |]; rewrite assigned_length; lia.
Qed.

(** What Alice calls is done by Alice, what Bob calls by Bob. *)
Lemma alice_calls D ncl S K i nds : 1 <= dL D -> 2 <= dN D -> nodes_of D ncl i = Some nds -> careful D ncl i -> done_by_alice D ncl S K i ->
  Forall (by_alice D ncl S K) (meaning D i).
Proof.
  intros HL HN E Hc [HS Hi]. apply Forall_forall. intros op Hop. destruct (call_means D ncl i nds op HL HN E Hc Hop) as (nd & Hm).
  assert (St : stands D S (instruction_channels i) op) by (apply call_stands; try assumption; intros M ->; exact Hi).
  pose proof (means_isometric D ncl nd op HL HN Hm) as HI.
  destruct op as [A h v|T|F|opt cl]; cbn [by_alice stands isometric] in *.
  - destruct St as [Hh Hv]. destruct (means_element D ncl nd A h v Hm) as (H1 & H2 & H3 & H4). auto 10.
  - now split.
  - intros r Hr. destruct i as [call|c cl|h v ct cp|vals chs|fn nv chs|opt cl|targets shifts|controls targets|A h v|M]; cbn [meaning] in Hop; unfold relabel in Hop; try (destruct Hop as [Hop|[]]; try discriminate; injection Hop as <-).
    + exfalso. clear - Hop. destruct call; cbn in Hop; unfold plate, crossing, mixing, plate in Hop; repeat (destruct Hop as [Hop|Hop]; [discriminate|]); destruct Hop.
    + now apply assigned_outside.
    + now apply Hi.
  - destruct i as [call|c cl'|h v ct cp|vals chs|fn nv chs|opt' cl'|targets shifts|controls targets|A h v|M]; cbn [meaning] in Hop; unfold relabel in Hop; try (destruct Hop as [Hop|[]]; try discriminate; injection Hop as <- <-).
    + exfalso. clear - Hop. destruct call; cbn in Hop; unfold plate, crossing, mixing, plate in Hop; repeat (destruct Hop as [Hop|Hop]; [discriminate|]); destruct Hop.
    + exact Hi.
Qed.
Lemma bob_calls D ncl S K i nds : 1 <= dL D -> 2 <= dN D -> nodes_of D ncl i = Some nds -> careful D ncl i -> done_by_bob D ncl S K i ->
  Forall (by_bob D ncl S K) (meaning D i).
Proof.
  intros HL HN E Hc [HS Hi]. apply Forall_forall. intros op Hop. destruct (call_means D ncl i nds op HL HN E Hc Hop) as (nd & Hm).
  assert (St : stands D (others S) (instruction_channels i) op) by (apply call_stands; try assumption; [intros c Hin; unfold others; now rewrite HS|intros M ->; exact Hi]).
  pose proof (means_isometric D ncl nd op HL HN Hm) as HI.
  destruct op as [A h v|T|F|opt cl]; cbn [by_bob stands isometric] in *.
  - destruct St as [Hh Hv]. destruct (means_element D ncl nd A h v Hm) as (H1 & H2 & H3 & _). repeat (split; [auto|]).
    intros r r' Hr [_ Hs].
    destruct i as [call|c cl|h' v' ct cp|vals chs|fn nv chs|opt cl|targets shifts|controls targets|A' h' v'|M]; cbn [meaning] in Hop; unfold relabel in Hop; try (destruct Hop as [Hop|[]]; try discriminate; injection Hop as <- <- <-).
    + clear - Hop. destruct call; cbn in Hop; unfold plate, crossing, mixing, plate in Hop; repeat (destruct Hop as [Hop|Hop]; [injection Hop as <- <- <-; reflexivity|]); destruct Hop.
    + now rewrite (Hs cl Hi).
    + destruct Hi as [Hct Hcp]. now rewrite (Hs ct Hct), (Hs cp Hcp).
    + reflexivity.
  - exact St.
  - split; [exact HI|]. intros r r' Hr Hs. destruct i as [call|c cl|h v ct cp|vals chs|fn nv chs|opt cl|targets shifts|controls targets|A h v|M]; cbn [meaning] in Hop; unfold relabel in Hop; try (destruct Hop as [Hop|[]]; try discriminate; injection Hop as <-).
    + exfalso. clear - Hop. destruct call; cbn in Hop; unfold plate, crossing, mixing, plate in Hop; repeat (destruct Hop as [Hop|Hop]; [discriminate|]); destruct Hop.
    + now apply assigned_same.
    + now apply Hi.
  - destruct i as [call|c cl'|h v ct cp|vals chs|fn nv chs|opt' cl'|targets shifts|controls targets|A h v|M]; cbn [meaning] in Hop; unfold relabel in Hop; try (destruct Hop as [Hop|[]]; try discriminate; injection Hop as <- <-).
    + exfalso. clear - Hop. destruct call; cbn in Hop; unfold plate, crossing, mixing, plate in Hop; repeat (destruct Hop as [Hop|Hop]; [discriminate|]); destruct Hop.
    + exact Hi.
Qed.
Lemma differ_first_app D ncl S K l p q : Forall (by_alice D ncl S K) l -> differ_by_alice D ncl S K p q -> differ_by_alice D ncl S K (l ++ p) q.
Proof. intros HF H. induction HF as [|op l Ho HF IH]; [exact H|]. now apply differ_first. Qed.
Lemma differ_second_app D ncl S K l p q : Forall (by_alice D ncl S K) l -> differ_by_alice D ncl S K p q -> differ_by_alice D ncl S K p (l ++ q).
Proof. intros HF H. induction HF as [|op l Ho HF IH]; [exact H|]. now apply differ_second. Qed.
Lemma differ_same_app D ncl S K l p q : Forall (fun op => by_alice D ncl S K op \/ by_bob D ncl S K op) l -> differ_by_alice D ncl S K p q -> differ_by_alice D ncl S K (l ++ p) (l ++ q).
Proof. intros HF H. induction HF as [|op l Ho HF IH]; [exact H|]. now apply differ_same. Qed.
Lemma program_cons D ncl i p nodes : program_nodes D ncl (i :: p) = Some nodes -> exists n1 n2, nodes_of D ncl i = Some n1 /\ program_nodes D ncl p = Some n2.
Proof. cbn [program_nodes]. destruct (nodes_of D ncl i) as [n1|]; [|discriminate]. destruct (program_nodes D ncl p) as [n2|]; [|discriminate]. intros _. now exists n1, n2. Qed.
Lemma same_differ D ncl S K p q : 1 <= dL D -> 2 <= dN D -> same_but_for_alice D ncl S K p q ->
  forall n1 n2, program_nodes D ncl p = Some n1 -> program_nodes D ncl q = Some n2 -> Forall (careful D ncl) p -> Forall (careful D ncl) q ->
  differ_by_alice D ncl S K (flat_map (meaning D) p) (flat_map (meaning D) q).
Proof.
  intros HL HN H. induction H as [|i p q Hi H IH|i p q Hi H IH|i p q Hi H IH]; intros n1 n2 E1 E2 C1 C2; cbn [flat_map].
  - constructor.
  - destruct (program_cons D ncl i p n1 E1) as (a & b & Ea & Eb). destruct (program_cons D ncl i q n2 E2) as (a2 & b2 & _ & Eb2). inversion C1 as [|? ? H1 H2]; subst. inversion C2; subst.
    apply differ_same_app; [|now apply (IH b b2)]. destruct Hi as [Hi|Hi].
    + eapply Forall_impl; [|exact (alice_calls D ncl S K i a HL HN Ea H1 Hi)]. auto.
    + eapply Forall_impl; [|exact (bob_calls D ncl S K i a HL HN Ea H1 Hi)]. auto.
  - destruct (program_cons D ncl i p n1 E1) as (a & b & Ea & Eb). inversion C1 as [|? ? H1 H2]; subst. apply differ_first_app; [now apply (alice_calls D ncl S K i a)|now apply (IH b n2)].
  - destruct (program_cons D ncl i q n2 E2) as (a & b & Ea & Eb). inversion C2 as [|? ? H1 H2]; subst. apply differ_second_app; [now apply (alice_calls D ncl S K i a)|now apply (IH n1 b)].
Qed.

(** If two programs differ only in Alice's calls, nobody who looks at the other classical channels sees the
    difference. *)
Theorem C63_calls : forall D ncl full S K p q nodes nodes2 its X rnd rnd2, 1 <= dL D -> 2 <= dN D ->
  program_nodes D ncl p = Some nodes -> program_nodes D ncl q = Some nodes2 -> Forall (careful D ncl) p -> Forall (careful D ncl) q ->
  same_but_for_alice D ncl S K p q -> proper_items D ncl its ->
  exists eps0, (0 < eps0)%R /\ forall eps, (0 < eps <= eps0)%R ->
    let c := Circuit D ncl eps full (fresh_keys D) nodes in let c2 := Circuit D ncl eps full (fresh_keys D) nodes2 in
    exists out out2, evaluate_circuit X rnd c (coll_of c its) = Ok (coll_of c out) /\ evaluate_circuit X rnd2 c2 (coll_of c2 its) = Ok (coll_of c2 out2) /\
      forall l r, prob_outside K out l r = prob_outside K out2 l r.
Proof.
  intros D ncl full S K p q nodes nodes2 its X rnd rnd2 HL HN E1 E2 C1 C2 HD Hp.
  apply (PropPrograms.C63_programs D ncl full S K p q); try assumption. now apply (same_differ D ncl S K p q HL HN HD nodes nodes2).
Qed.
Print Assumptions C63_calls.

(** A shift of Alice's photon numbers, controlled by her other channel, and a matrix for her channels. *)
Definition busy_alice : list instruction := [Shift_by [0] [1%Z]; Control_shift [0] [1]; Detectors [1] [0]; Set_channels [2%R] [0]].
Definition bob_looks : list instruction := [Optics (Half_wave_plate 2 3 (PI / 8)); Control_shift [3] [2]; Detectors [2; 3] [1; 2]].
Example C63_calls_case : (exists nodes, program_nodes (Dims 2 4 true) 3 (busy_alice ++ bob_looks) = Some nodes) /\ (exists nodes, program_nodes (Dims 2 4 true) 3 bob_looks = Some nodes) /\
  Forall (careful (Dims 2 4 true) 3) (busy_alice ++ bob_looks) /\ Forall (careful (Dims 2 4 true) 3) bob_looks /\
  same_but_for_alice (Dims 2 4 true) 3 (among [0; 1]) (among [0]) (busy_alice ++ bob_looks) bob_looks /\
  proper_items (Dims 2 4 true) 3 PropPrograms.shared_items.
Proof.
  split; [eexists; vm_compute; reflexivity|]. split; [eexists; vm_compute; reflexivity|].
  assert (HB : Forall (careful (Dims 2 4 true) 3) bob_looks).
  { constructor; [cbn; unfold in_order; lia|]. constructor; [cbn; intros p q [<-|[]] [<-|[]]; cbn; lia|]. constructor; [cbn; repeat constructor; cbn; intuition discriminate|constructor]. }
  split; [|split; [exact HB|split; [|exact PropPrograms.shared_proper]]].
  - constructor; [exact I|]. constructor; [cbn; intros p q [<-|[]] [<-|[]]; cbn; lia|]. constructor; [cbn; repeat constructor; cbn; intuition discriminate|]. constructor; [cbn; repeat constructor; cbn; intuition discriminate|exact HB].
  - unfold busy_alice, bob_looks. cbn [app].
    apply first_calls; [split; [cbn; intros c [<-|[]]; reflexivity|exact I]|]. apply first_calls; [split; [cbn; intros c [<-|[<-|[]]]; reflexivity|exact I]|].
    apply first_calls; [split; [cbn; intros c []|split; intros c [<-|[]]; reflexivity]|]. apply first_calls; [split; [cbn; intros c []|intros c [<-|[]]; reflexivity]|].
    apply both_call; [right; split; [cbn; intros c [<-|[<-|[]]]; reflexivity|exact I]|]. apply both_call; [right; split; [cbn; intros c [<-|[<-|[]]]; reflexivity|exact I]|].
    apply both_call; [right; split; [cbn; intros c []|split; intros c [<-|[<-|[]]]; reflexivity]|constructor].
Qed.

(** ** C72 *)
Lemma local_calls D ncl S K Q i nds : 1 <= dL D -> 2 <= dN D -> within K Q -> nodes_of D ncl i = Some nds -> careful D ncl i -> local_call D ncl S K Q i ->
  Forall (local_to D ncl S K Q) (meaning D i).
Proof.
  intros HL HN HK E Hc [HS Hi]. apply Forall_forall. intros op Hop. destruct (call_means D ncl i nds op HL HN E Hc Hop) as (nd & Hm).
  assert (St : stands D S (instruction_channels i) op) by (apply call_stands; try assumption; intros M ->; exact Hi).
  destruct op as [A h v|T|F|opt cl]; cbn [local_to stands] in *.
  - destruct St as [Hh Hv]. destruct (means_element D ncl nd A h v Hm) as (H1 & H2 & H3 & _). repeat (split; [auto|]).
    intros r r' Hr Hr' Hs.
    destruct i as [call|c cl|h' v' ct cp|vals chs|fn nv chs|opt cl|targets shifts|controls targets|A' h' v'|M]; cbn [meaning] in Hop; unfold relabel in Hop; try (destruct Hop as [Hop|[]]; try discriminate; injection Hop as <- <- <-).
    + clear - Hop. destruct call; cbn in Hop; unfold plate, crossing, mixing, plate in Hop; repeat (destruct Hop as [Hop|Hop]; [injection Hop as <- <- <-; reflexivity|]); destruct Hop.
    + now rewrite (Hs cl Hi).
    + destruct Hi as [Hct Hcp]. now rewrite (Hs ct Hct), (Hs cp Hcp).
    + reflexivity.
  - exact St.
  - destruct i as [call|c cl|h v ct cp|vals chs|fn nv chs|opt cl|targets shifts|controls targets|A h v|M]; cbn [meaning] in Hop; unfold relabel in Hop; try (destruct Hop as [Hop|[]]; try discriminate; injection Hop as <-).
    + exfalso. clear - Hop. destruct call; cbn in Hop; unfold plate, crossing, mixing, plate in Hop; repeat (destruct Hop as [Hop|Hop]; [discriminate|]); destruct Hop.
    + split; [intros r Hr; now apply assigned_outside|]. intros r r' Hr Hr' Hs c Hk. destruct (Nat.lt_ge_cases c (length r)) as [Hlt|Hge].
      * rewrite !assigned_nth by lia. destruct (assigned_at chs vals c); [reflexivity|]. apply Hs. now apply HK.
      * rewrite !nth_overflow; [reflexivity| |]; rewrite assigned_length; lia.
    + exact Hi.
  - destruct i as [call|c cl'|h v ct cp|vals chs|fn nv chs|opt' cl'|targets shifts|controls targets|A h v|M]; cbn [meaning] in Hop; unfold relabel in Hop; try (destruct Hop as [Hop|[]]; try discriminate; injection Hop as <- <-).
    + exfalso. clear - Hop. destruct call; cbn in Hop; unfold plate, crossing, mixing, plate in Hop; repeat (destruct Hop as [Hop|Hop]; [discriminate|]); destruct Hop.
    + exact Hi.
Qed.
Lemma shuffle_left_app l a b p : shuffle a b p -> shuffle (l ++ a) b (l ++ p).
Proof. intros H. induction l as [|x l IH]; [exact H|]. now apply shuffle_left. Qed.
Lemma shuffle_right_app l a b p : shuffle a b p -> shuffle a (l ++ b) (l ++ p).
Proof. intros H. induction l as [|x l IH]; [exact H|]. now apply shuffle_right. Qed.
Lemma interleaved_shuffle D a b p : interleaved a b p -> shuffle (flat_map (meaning D) a) (flat_map (meaning D) b) (flat_map (meaning D) p).
Proof.
  intros H. induction H; cbn [flat_map].
  - constructor.
  - now apply shuffle_left_app.
  - now apply shuffle_right_app.
  - cbn [meaning app]. now apply shuffle_joint.
Qed.
Lemma detectors_local D ncl S K Q opt cl : local_call D ncl S K Q (Detectors opt cl) -> Forall (local_to D ncl S K Q) (meaning D (Detectors opt cl)).
Proof. intros [_ H]. repeat constructor; apply H. Qed.
Lemma interleaved_local D ncl SA KA QA SB KB QB a b p : 1 <= dL D -> 2 <= dN D -> within KA QA -> within KB QB -> interleaved a b p ->
  forall nodes, program_nodes D ncl p = Some nodes -> Forall (careful D ncl) p -> Forall (local_call D ncl SA KA QA) a -> Forall (local_call D ncl SB KB QB) b ->
  Forall (local_to D ncl SA KA QA) (flat_map (meaning D) a) /\ Forall (local_to D ncl SB KB QB) (flat_map (meaning D) b).
Proof.
  intros HL HN WA WB H. induction H as [|i a b p H IH|i a b p H IH|opt cl opt' cl' a b p L1 L2 Hd H IH]; intros nodes E HC HA HB.
  - split; constructor.
  - destruct (program_cons D ncl i p nodes E) as (n1 & n2 & E1 & E2). inversion HC as [|? ? C1 C2]; subst. inversion HA as [|? ? A1 A2]; subst. destruct (IH n2 E2 C2 A2 HB) as [IH1 IH2].
    split; [|exact IH2]. cbn [flat_map]. apply Forall_app. split; [|exact IH1]. now apply (local_calls D ncl SA KA QA i n1).
  - destruct (program_cons D ncl i p nodes E) as (n1 & n2 & E1 & E2). inversion HC as [|? ? C1 C2]; subst. inversion HB as [|? ? B1 B2]; subst. destruct (IH n2 E2 C2 HA B2) as [IH1 IH2].
    split; [exact IH1|]. cbn [flat_map]. apply Forall_app. split; [|exact IH2]. now apply (local_calls D ncl SB KB QB i n1).
  - destruct (program_cons D ncl _ p nodes E) as (n1 & n2 & _ & E2). inversion HC as [|? ? _ C2]; subst. inversion HA as [|? ? A1 A2]; subst. inversion HB as [|? ? B1 B2]; subst. destruct (IH n2 E2 C2 A2 B2) as [IH1 IH2].
    split; cbn [flat_map]; apply Forall_app; (split; [now apply detectors_local|assumption]).
Qed.

(** Two parties who build their circuit by calls, each for their own channels: Tsirelson's bound. *)
Theorem C72_calls : forall D ncl full SA KA QA SB KB QB (alice bob : bool -> list instruction) (p : bool -> bool -> list instruction)
    (nodes : bool -> bool -> list node) (its : bool -> bool -> items) (l : bool -> bool -> ident) (a b : bool -> list R -> R) X rnd,
  1 <= dL D -> 2 <= dN D -> separate SA KA QA SB KB QB ->
  (forall x, Forall (local_call D ncl SA KA QA) (alice x)) -> (forall y, Forall (local_call D ncl SB KB QB) (bob y)) ->
  (forall x y, interleaved (alice x) (bob y) (p x y)) -> (forall x y, program_nodes D ncl (p x y) = Some (nodes x y)) ->
  (forall x y, Forall (careful D ncl) (p x y)) -> (forall x y, proper_items D ncl (its x y)) ->
  (forall x, Forall2 (prepared_alike D QA) (from (l x false) (its x false)) (from (l x true) (its x true))) ->
  (forall y, Forall2 (prepared_alike D QB) (from (l false y) (its false y)) (from (l true y) (its true y))) ->
  (forall x, verdict ncl QA (a x)) -> (forall y, verdict ncl QB (b y)) ->
  exists eps0, (0 < eps0)%R /\ forall eps, (0 < eps <= eps0)%R ->
    let circuit x y := Circuit D ncl eps full (fresh_keys D) (nodes x y) in
    exists out : bool -> bool -> items,
      (forall x y, evaluate_circuit X rnd (circuit x y) (coll_of (circuit x y) (its x y)) = Ok (coll_of (circuit x y) (out x y))) /\
      let E x y := mean_product (out x y) (l x y) (a x) (b y) in
      (Rabs (E false false + E false true + E true false - E true true) <= 2 * sqrt 2 * weight_of_label (its false false) (l false false))%R.
Proof.
  intros D ncl full SA KA QA SB KB QB alice bob p nodes its l a b X rnd HL HN HSep HA HB HI Hn HC Hp HQA HQB Va Vb.
  assert (HW : within KA QA /\ within KB QB) by (destruct HSep as (_ & _ & _ & W1 & W2); now split). destruct HW as [W1 W2].
  apply (C72_tsirelson D ncl full SA KA QA SB KB QB (fun x => flat_map (meaning D) (alice x)) (fun y => flat_map (meaning D) (bob y)) (fun x y => flat_map (meaning D) (p x y))); try assumption.
  - intros x. now apply (interleaved_local D ncl SA KA QA SB KB QB (alice x) (bob true) (p x true) HL HN W1 W2 (HI x true) (nodes x true)).
  - intros y. now apply (interleaved_local D ncl SA KA QA SB KB QB (alice true) (bob y) (p true y) HL HN W1 W2 (HI true y) (nodes true y)).
  - intros x y. now apply interleaved_shuffle.
  - intros x y. now apply program_means.
Qed.
Print Assumptions C72_calls.
(** The Bell inequality holds for product states. *)
Theorem C72_product_calls : forall D ncl full SA KA QA SB KB QB (alice bob : bool -> list instruction) (p : bool -> bool -> list instruction)
    (nodes : bool -> bool -> list node) (its : bool -> bool -> items) (l : bool -> bool -> ident) (a b : bool -> list R -> R) X rnd,
  1 <= dL D -> 2 <= dN D -> separate SA KA QA SB KB QB ->
  (forall x, Forall (local_call D ncl SA KA QA) (alice x)) -> (forall y, Forall (local_call D ncl SB KB QB) (bob y)) ->
  (forall x y, interleaved (alice x) (bob y) (p x y)) -> (forall x y, program_nodes D ncl (p x y) = Some (nodes x y)) ->
  (forall x y, Forall (careful D ncl) (p x y)) -> (forall x y, proper_items D ncl (its x y)) ->
  (forall x, Forall2 (prepared_alike D QA) (from (l x false) (its x false)) (from (l x true) (its x true))) ->
  (forall y, Forall2 (prepared_alike D QB) (from (l false y) (its false y)) (from (l true y) (its true y))) ->
  (forall x, verdict ncl QA (a x)) -> (forall y, verdict ncl QB (b y)) ->
  (forall it, In it (from (l false false) (its false false)) -> product_state D SA (snd it)) ->
  exists eps0, (0 < eps0)%R /\ forall eps, (0 < eps <= eps0)%R ->
    let circuit x y := Circuit D ncl eps full (fresh_keys D) (nodes x y) in
    exists out : bool -> bool -> items,
      (forall x y, evaluate_circuit X rnd (circuit x y) (coll_of (circuit x y) (its x y)) = Ok (coll_of (circuit x y) (out x y))) /\
      let E x y := mean_product (out x y) (l x y) (a x) (b y) in
      (Rabs (E false false + E false true + E true false - E true true) <= 2 * weight_of_label (its false false) (l false false))%R.
Proof.
  intros D ncl full SA KA QA SB KB QB alice bob p nodes its l a b X rnd HL HN HSep HA HB HI Hn HC Hp HQA HQB Va Vb HPr.
  assert (HW : within KA QA /\ within KB QB) by (destruct HSep as (_ & _ & _ & W1 & W2); now split). destruct HW as [W1 W2].
  apply (C72_product D ncl full SA KA QA SB KB QB (fun x => flat_map (meaning D) (alice x)) (fun y => flat_map (meaning D) (bob y)) (fun x y => flat_map (meaning D) (p x y))); try assumption.
  - intros x. now apply (interleaved_local D ncl SA KA QA SB KB QB (alice x) (bob true) (p x true) HL HN W1 W2 (HI x true) (nodes x true)).
  - intros y. now apply (interleaved_local D ncl SA KA QA SB KB QB (alice true) (bob y) (p true y) HL HN W1 W2 (HI true y) (nodes true y)).
  - intros x y. now apply interleaved_shuffle.
  - intros x y. now apply program_means.
Qed.
Print Assumptions C72_product_calls.
(** The Bell test of the test suite is made of such calls. *)
Definition bell_party (opt ang cl : nat) : list instruction := [Plate_by opt (Datatypes.S opt) ang 3; Detectors [opt] [cl]].
Example C72_calls_case : let D := Dims 2 4 true in
  let SA := among [0; 1] in let KA := among [4] in let QA := among [0; 3; 4] in let SB := among [2; 3] in let KB := among [5] in let QB := among [1; 3; 5] in
  separate SA KA QA SB KB QB /\ Forall (local_call D 6 SA KA QA) (bell_party 0 0 4) /\ Forall (local_call D 6 SB KB QB) (bell_party 2 1 5) /\
  interleaved (bell_party 0 0 4) (bell_party 2 1 5) bell_test /\ (exists nodes, program_nodes D 6 bell_test = Some nodes) /\ Forall (careful D 6) bell_test.
Proof.
  cbv zeta. split; [apply C72_case|]. split; [|split; [|split; [|split]]].
  - constructor; [split; [intros c [<-|[<-|[]]]; reflexivity|split; reflexivity]|]. constructor; [split; [intros c []|split; intros c [<-|[]]; reflexivity]|constructor].
  - constructor; [split; [intros c [<-|[<-|[]]]; reflexivity|split; reflexivity]|]. constructor; [split; [intros c []|split; intros c [<-|[]]; reflexivity]|constructor].
  - unfold bell_test, bell_party. apply inter_left, inter_right, (inter_joint [0] [4] [2] [5]); try reflexivity; [|constructor]. intros k [<-|[]] [E|[]]. discriminate.
  - eexists; reflexivity.
  - unfold bell_test; repeat (apply Forall_cons || apply Forall_nil); cbn; unfold in_order; repeat split; try lia; repeat (constructor; cbn; try (intuition discriminate)).
Qed.
