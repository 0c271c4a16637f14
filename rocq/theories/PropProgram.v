(** C62: circuits as users build them. *)
From Coq Require Import Reals List Arith Lia Lra Bool Permutation ZArith.
From Coquelicot Require Import Complex.
From Verif Require Import Prelude NamesModel NamesSpec NamesProofs FockModel FockSpec FockProofs GateProofs
  OpticalModel OpticalProofs StateModel StateSpec StateProofs CollectionModel EvalModel EvalSpec EvalProofs MeasureSpec MeasureProofs PropEval
  InterferenceSpec ArrangementProofs PermanentProofs CustomModel CustomSpec PropCustom PropOptical CircuitSpec CircuitProofs EnsembleProofs PropCircuit ProgramModel ProgramSpec.
Import ListNotations.

Lemma symmetric_tr A : mat2_symmetric A -> mat2_tr A = A.
Proof. intro H. destruct A as [a b c d]. cbn in *. unfold mat2_symmetric in H. cbn in H. unfold mat2_tr. cbn. now rewrite H. Qed.

Section Program.
Variables (D : dims) (ncl : nat).
Hypothesis (HL : 1 <= dL D) (HN : 2 <= dN D).

Lemma tensor_means h v tl : tensor_list_of (dN D) [h; v] = Some tl -> in_order h v -> exists rest, tl = h :: v :: rest /\ Permutation (h :: v :: rest) (seq 0 (dN D)).
Proof.
  intros E Ho. unfold in_order in Ho.
  assert (h <> v /\ h < dN D /\ v < dN D) as (H1 & H2 & H3).
  { unfold tensor_list_of in E. destruct (Nat.eqb_spec h v); [discriminate|]. split; [assumption|].
    destruct (Nat.eqb_spec h 0), (Nat.eqb_spec v 1); cbn [andb] in E; try lia;
    destruct (Nat.eqb_spec h 1), (Nat.eqb_spec v 0); cbn [andb] in E; try lia;
    destruct (Nat.ltb_spec h (dN D)), (Nat.ltb_spec v (dN D)); cbn [andb] in E; try discriminate; lia. }
  destruct (tensor_list_good (dN D) h v HN H2 H3 H1 Ho) as (rest & E' & HP). rewrite E in E'. injection E' as ->. now exists rest.
Qed.
Definition oriented (g : gate) : Prop := exists h v, snd g = [h; v] /\ in_order h v /\ unitary2 (fst g) /\ mat2_symmetric (fst g).
Definition gate_op (g : gate) : operation := Element (fun _ => fst g) (nth 0 (snd g) 0) (nth 1 (snd g) 0).
Lemma place_means gs : forall nds, place D gs = Some nds -> Forall oriented gs ->
  Forall2 (means D ncl) (map (fun nd => NOptical (on_matrix nd) (on_tl nd)) nds) (map gate_op gs).
Proof.
  induction gs as [|[A chs] gs IH]; intros nds E HF; [cbn in E; injection E as <-; constructor|]. inversion HF as [|? ? (h & v & E1 & Ho & HU & HS) HF']; subst. cbn [snd fst] in *. subst chs.
  cbn [place] in E. destruct (tensor_list_of (dN D) [h; v]) as [tl|] eqn:Et; [|discriminate]. destruct (place D gs) as [nds'|]; [|discriminate]. injection E as <-. cbn [map].
  constructor; [|now apply IH]. destruct (tensor_means h v tl Et Ho) as (rest & -> & HP). cbn [on_matrix on_tl gate_op fst snd nth].
  unfold gate_op. cbn [fst snd nth]. replace (Element (fun _ => A) h v) with (Element (fun _ => mat2_tr A) h v) by (now rewrite (symmetric_tr A HS)). now constructor.
Qed.
Lemma oriented_generic t p h v : in_order h v -> oriented (generic_matrix t p, [h; v]).
Proof. intro Ho. exists h, v. split; [reflexivity|]. split; [exact Ho|]. split; [apply generic_unitary|apply generic_symmetric]. Qed.
Lemma oriented_swap a b : a <> b -> oriented (swap_gate a b) /\ gate_op (swap_gate a b) = crossing a b.
Proof.
  intro Hn. split.
  - unfold swap_gate. destruct (Nat.ltb_spec b a); apply oriented_generic; unfold in_order; lia.
  - unfold swap_gate, gate_op, crossing, plate. destruct (Nat.ltb_spec b a); cbn [fst snd nth]; [rewrite Nat.min_r, Nat.max_l by lia|rewrite Nat.min_l, Nat.max_r by lia]; reflexivity.
Qed.
Lemma mix_generic_gate a b r t g : mix_generic a b r t = Some g -> in_order a b -> oriented g /\ gate_op g = mixing r t a b.
Proof.
  unfold mix_generic. destruct (Req_EM_T _ _); [|discriminate]. destruct (Rle_dec 0 r); [|discriminate]. destruct (Rle_dec 0 t); [|discriminate]. intros E Ho. injection E as <-. split; [now apply oriented_generic|reflexivity].
Qed.
Lemma place_distinct A a b gs nds : place D ((A, [a; b]) :: gs) = Some nds -> a <> b.
Proof. cbn [place]. unfold tensor_list_of. destruct (Nat.eqb_spec a b); [discriminate|auto]. Qed.
Lemma swap_distinct a b gs nds : place D (swap_gate a b :: gs) = Some nds -> a <> b.
Proof. unfold swap_gate. destruct (b <? a); intro H; apply place_distinct in H; auto. Qed.
Lemma optics_means call gs nds : gates_of (dN D) call = Some gs -> place D gs = Some nds -> careful D ncl (Optics call) -> Forall oriented gs /\ map gate_op gs = optics_meaning call.
Proof.
  intros E EP Hc. destruct call; cbn [gates_of careful optics_meaning] in *;
    try (injection E as <-; split; [constructor; [now apply oriented_generic|constructor]|reflexivity]).
  - (* phase shift *) injection E as <-. unfold partner. destruct (Nat.eqb_spec c 0) as [->|Hn]; (split; [constructor; [apply oriented_generic; unfold in_order; lia|constructor]|reflexivity]).
  - (* swap *) injection E as <-. pose proof (swap_distinct _ _ _ _ EP) as Hn. destruct (oriented_swap a b Hn) as (H1 & H2). split; [now constructor|]. cbn [map]. now rewrite H2.
  - (* mix *) destruct (mix_generic a b refl transm) as [g|] eqn:Eg; [|discriminate]. cbn in E. injection E as <-. destruct (mix_generic_gate _ _ _ _ _ Eg Hc) as [H1 H2]. split; [now constructor|]. cbn [map]. now rewrite H2.
  - destruct (dN D <? 4); [discriminate|]. injection E as <-. pose proof (swap_distinct _ _ _ _ EP) as Hn. destruct (oriented_swap a1 b1 Hn) as (H1 & H2). split; [now constructor|]. cbn [map]. now rewrite H2.
  - destruct (dN D <? 4); [discriminate|]. injection E as <-. destruct Hc as [Hc1 Hc2]. split; [|reflexivity]. constructor; [now apply oriented_generic|]. constructor; [now apply oriented_generic|constructor].
  - destruct (dN D <? 4); [discriminate|]. destruct (mix_generic a0 b0 refl transm) as [g|] eqn:Eg; [|discriminate]. destruct (mix_generic a1 b1 refl transm) as [g'|] eqn:Eg'; [|discriminate]. injection E as <-. destruct Hc as [Hc1 Hc2].
    destruct (mix_generic_gate _ _ _ _ _ Eg Hc1) as [H1 H2]. destruct (mix_generic_gate _ _ _ _ _ Eg' Hc2) as [H3 H4]. split; [now repeat constructor|]. cbn [map]. now rewrite H2, H4.
Qed.
Lemma assigned_at_none chs : forall vals c, ~ In c chs -> assigned_at chs vals c = None.
Proof.
  induction chs as [|k chs IH]; intros vals c H; [reflexivity|]. destruct vals as [|x vals]; [reflexivity|]. cbn. destruct (Nat.eqb_spec k c) as [->|]; [exfalso; apply H; now left|]. apply IH. intro; apply H; now right.
Qed.
Lemma assigned_at_nth chs : forall vals i, NoDup chs -> i < length chs -> length vals = length chs -> assigned_at chs vals (nth i chs 0) = Some (nth i vals 0%R).
Proof.
  induction chs as [|k chs IH]; intros vals i ND Hi Hl; [cbn in Hi; lia|]. destruct vals as [|x vals]; [discriminate|]. inversion ND as [|? ? Hk ND']; subst. destruct i as [|i]; cbn [nth assigned_at]; [now rewrite Nat.eqb_refl|].
  destruct (Nat.eqb_spec k (nth i chs 0)) as [->|]; [exfalso; apply Hk; apply nth_In; cbn in Hi; lia|]. apply IH; [exact ND'|cbn in Hi; lia|now injection Hl].
Qed.
Lemma assigned_length chs vals reg : length (assigned chs vals reg) = length reg.
Proof. unfold assigned. now rewrite map_length, seq_length. Qed.
Lemma assigned_nth chs vals reg c : c < length reg -> nth c (assigned chs vals reg) 0%R = match assigned_at chs vals c with Some x => x | None => nth c reg 0%R end.
Proof.
  intro Hc. unfold assigned. set (F := fun c => _). rewrite (nth_indep _ 0%R (F 0)) by (now rewrite map_length, seq_length). rewrite map_nth, seq_nth by exact Hc. reflexivity.
Qed.
Lemma set_values_assigned chs vals reg : NoDup chs -> (forall c, In c chs -> c < length reg) -> length vals = length chs -> set_values reg vals chs = assigned chs vals reg.
Proof.
  intros ND Hr Hl. destruct (set_values_nth chs vals reg ND Hr Hl) as [H1 H2]. apply (nth_ext _ _ 0%R 0%R); [now rewrite set_values_length, assigned_length|].
  intros c Hc. rewrite set_values_length in Hc. rewrite assigned_nth by exact Hc.
  destruct (in_dec Nat.eq_dec c chs) as [Hin|Hn].
  - apply (In_nth _ _ 0) in Hin. destruct Hin as (i & Hi & <-). rewrite H1 by exact Hi. now rewrite assigned_at_nth.
  - rewrite H2 by exact Hn. now rewrite assigned_at_none.
Qed.
Lemma relabel_means M (F : values -> values) (P : values -> values -> Prop) : unitary_mat (size_of_basis D) M -> moves D M P ->
  (forall f g, valid D f -> valid D g -> (P f g <-> g = F f)) -> means D ncl (NCustomFock M) (relabel F).
Proof.
  intros HU HM HP. constructor; [exact HU|]. intros f g Vf Vg. destruct (HM f g Vf Vg) as [H1 H2]. destruct (leqb g (F f)) eqn:E.
  - apply leqb_spec in E. rewrite H1; [reflexivity|now apply HP]. 
  - rewrite H2; [reflexivity|]. intro H. apply HP in H; try assumption. subst g. rewrite leqb_refl in E. discriminate.
Qed.
Lemma map_seq_values (Fc : nat -> nat) (f g : values) : (length g = length f /\ forall c, c < length f -> nth c g 0 = Fc c) <-> g = map Fc (seq 0 (length f)).
Proof.
  split.
  - intros [Hl H]. apply (nth_ext _ _ 0 0); [now rewrite map_length, seq_length|]. intros c Hc. rewrite Hl in Hc. rewrite H by exact Hc. rewrite (nth_indep _ 0 (Fc 0)) by (now rewrite map_length, seq_length). rewrite (map_nth Fc), seq_nth by exact Hc. reflexivity.
  - intros ->. split; [now rewrite map_length, seq_length|]. intros c Hc. rewrite (nth_indep _ 0 (Fc 0)) by (now rewrite map_length, seq_length). rewrite (map_nth Fc), seq_nth by exact Hc. reflexivity.
Qed.
Lemma nth_error_R (reg : list R) c : c < length reg -> nth_error reg c = Some (nth c reg 0%R).
Proof. intro H. rewrite (nth_error_nth' _ 0%R H). reflexivity. Qed.

Lemma instruction_means i nds : nodes_of D ncl i = Some nds -> careful D ncl i -> Forall2 (means D ncl) nds (meaning D i).
Proof.
  intros E Hc. destruct i as [call|c cl|h v ct cp|vals chs|fn nv chs|opt cl|targets shifts|controls targets|A h v|M]; cbn [nodes_of meaning careful] in *; cbv zeta in E.
  - destruct (gates_of (dN D) call) as [gs|] eqn:Eg; [|discriminate]. destruct (place D gs) as [ns|] eqn:Ep; [|discriminate]. injection E as <-.
    destruct (optics_means call gs ns Eg Ep Hc) as [HF <-]. now apply place_means.
  - destruct (phase_shift_classical_control (dN D) ncl c cl) as [nd|] eqn:En; [|discriminate]. injection E as <-. unfold phase_shift_classical_control in En. destruct (_ || _); [discriminate|].
    assert (Et : exists tl, tensor_list_of (dN D) [partner c; c] = Some tl /\ nd = NControlled 0 0 [(false, cl)] tl).
    { unfold partner. destruct (Nat.eqb_spec c 0) as [->|]; destruct (tensor_list_of (dN D) _) as [tl|]; try discriminate; injection En as <-; now exists tl. }
    destruct Et as (tl & Et & ->). destruct (tensor_means _ _ _ Et) as (rest & -> & HP); [unfold in_order, partner; intros ->; reflexivity|]. constructor; [|constructor]. constructor; [exact HP|].
    intros reg Hr. exists 0%R, (nth cl reg 0%R). split; [|reflexivity]. cbn. now rewrite nth_error_R by lia.
  - destruct Hc as (Ho & Hct & Hcp). destruct (wave_plate_classical_control (dN D) ncl h v ct cp) as [nd|] eqn:En; [|discriminate]. injection E as <-. unfold wave_plate_classical_control in En. destruct (_ || _); [discriminate|].
    destruct (tensor_list_of (dN D) [h; v]) as [tl|] eqn:Et; [|discriminate]. injection En as <-. destruct (tensor_means _ _ _ Et Ho) as (rest & -> & HP). constructor; [|constructor]. constructor; [exact HP|].
    intros reg Hr. exists (nth ct reg 0%R), (nth cp reg 0%R). split; [|reflexivity]. cbn. rewrite nth_error_R by lia. cbn. now rewrite nth_error_R by lia.
  - destruct (set_classical_channels ncl vals chs) as [nd|] eqn:En; [|discriminate]. injection E as <-. unfold set_classical_channels in En. destruct chs as [|ch chs]; [discriminate|].
    destruct (Nat.eqb_spec (length vals) (length (ch :: chs))) as [El|]; [|discriminate]. cbn [andb] in En. destruct (forallb _ _) eqn:Ef; [|discriminate]. injection En as <-. rewrite forallb_forall in Ef. constructor; [|constructor]. constructor.
    intros reg Hr. split; [apply set_values_assigned; try assumption; intros x Hx; rewrite Hr; apply Nat.ltb_lt; now apply Ef|]. now rewrite assigned_length.
  - injection E as <-. constructor; [|constructor]. constructor. intros reg Hr. split; [reflexivity|now apply Hc].
  - destruct (measure_optical_to_classical (dN D) ncl opt cl) as [nd|] eqn:En; [|discriminate]. injection E as <-. unfold measure_optical_to_classical in En.
    destruct (Nat.eqb_spec (length cl) (length opt)) as [El|]; [|discriminate]. cbn [andb] in En. destruct (forallb _ opt) ; [|discriminate]. cbn [andb] in En. destruct (forallb _ cl) eqn:Ef; [|discriminate]. injection En as <-. rewrite forallb_forall in Ef.
    constructor; [|constructor]. constructor; [exact El| |exact Hc]. intros c Hin. apply Nat.ltb_lt. now apply Ef.
  - destruct (shift D (fresh_keys D) targets shifts) as [nd|] eqn:En; [|discriminate]. injection E as <-. destruct (C39_shift D targets shifts nd HL En) as (M & -> & HM & HU). constructor; [|constructor].
    apply (relabel_means M _ _ HU HM). intros f g Vf Vg. apply map_seq_values.
  - destruct (c_shift D (fresh_keys D) controls targets) as [nd|] eqn:En; [|discriminate]. injection E as <-. destruct (C39_c_shift_separate D controls targets nd HL Hc En) as (M & -> & HM & HU). constructor; [|constructor].
    apply (relabel_means M _ _ HU HM). intros f g Vf Vg. apply map_seq_values.
  - destruct Hc as [HU Ho]. unfold custom_optical_node in E. cbn in E. destruct (tensor_list_of (dN D) [h; v]) as [tl|] eqn:Et; [|unfold tensor_list_of in Et; cbn in Et; rewrite Et in E; discriminate].
    destruct (tensor_means _ _ _ Et Ho) as (rest & -> & HP). unfold tensor_list_of in Et. cbn in Et. rewrite Et in E. injection E as <-. constructor; [|constructor]. destruct A as [x1 x2 x3 x4]. cbn. now constructor.
  - injection E as <-. constructor; [|constructor]. unfold custom_fock_state_node. constructor; [exact Hc|]. reflexivity.
Qed.
Lemma program_means p : forall nds, program_nodes D ncl p = Some nds -> Forall (careful D ncl) p -> Forall2 (means D ncl) nds (flat_map (meaning D) p).
Proof.
  induction p as [|i p IH]; intros nds E HF; [cbn in E; injection E as <-; constructor|]. cbn [program_nodes] in E. destruct (nodes_of D ncl i) as [a|] eqn:Ea; [|discriminate]. destruct (program_nodes D ncl p) as [b|]; [|discriminate]. injection E as <-.
  inversion HF; subst. cbn [flat_map]. apply Forall2_app; [now apply instruction_means|now apply IH].
Qed.
End Program.

(** ** C62 *)
(** A circuit built by the calls of the package does, for every threshold that is small enough, to
    every collection what its calls mean one after the other. *)
Theorem C62_program : forall D ncl full p nodes its X rnd, 1 <= dL D -> 2 <= dN D ->
  program_nodes D ncl p = Some nodes -> Forall (careful D ncl) p -> proper_items D ncl its ->
  exists eps0, (0 < eps0)%R /\ forall eps, (0 < eps <= eps0)%R ->
  let c := Circuit D ncl eps full (fresh_keys D) nodes in
  exists its', evaluate_circuit X rnd c (coll_of c its) = Ok (coll_of c its') /\ proper_items D ncl its' /\
    same_branches D (branches_of D its') (filter (nonzero D) (run D (flat_map (meaning D) p) (branches_of D its))).
Proof.
  intros D ncl full p nodes its X rnd HL HN E HF Hp. apply C62_exact; try assumption. now apply program_means.
Qed.

(** A Hong-Ou-Mandel experiment with feed-forward: two photons on a beam splitter, a detector whose result
    is the phase of the next element, a second beam splitter and two detectors. *)
Definition case_dims : dims := Dims 3 2 true.
Definition case_program : list instruction :=
  [Optics (Mix_50_50 0 1); Detectors [0] [0]; Phase_by 1 0; Optics (Mix_50_50 0 1); Shift_by [1] [1%Z]; Set_channels [3%R] [0]; Detectors [0; 1] [0; 1]].
Definition case_items : items :=
  [([97], State [97] (/ 2) [([1;1], (RtoC 1, 1%R))] [0%R; 0%R] [] []);
   ([98], State [98] (/ 2) [([0;2], (RtoC (/ sqrt 2), (/2)%R)); ([1;0], (RtoC (/ sqrt 2), (/2)%R))] [0%R; 5%R] [] [])].
Example C62_case : (exists nodes, program_nodes case_dims 2 case_program = Some nodes /\ length nodes = 7) /\
  Forall (careful case_dims 2) case_program /\ proper_items case_dims 2 case_items.
Proof.
  split; [|split].
  - eexists. split; [vm_compute; reflexivity|reflexivity].
  - unfold case_program. repeat constructor; unfold in_order; try lia; cbn; intuition discriminate.
  - assert (H2 : Cnorm2 (RtoC (/ sqrt 2)) = (/ 2)%R).
    { unfold Cnorm2. cbn. replace (/ sqrt 2 * / sqrt 2)%R with (/ (sqrt 2 * sqrt 2))%R by (field; apply Rgt_not_eq, sqrt_lt_R0; lra). rewrite sqrt_sqrt by lra. ring. }
    assert (H1 : Cnorm2 (RtoC 1) = 1%R) by (unfold Cnorm2; cbn; ring).
    assert (Hs : RtoC (/ sqrt 2) <> RtoC 0). { intro H. apply RtoC_inj in H. apply (Rinv_neq_0_compat (sqrt 2)); [apply Rgt_not_eq, sqrt_lt_R0; lra|exact H]. }
    split; [discriminate|]. split; [repeat constructor; cbn; intuition discriminate|]. constructor; [|constructor; [|constructor]]; cbn [snd].
    + split; [|split; [|split; [|split; [|split; reflexivity]]]].
      * split; [repeat constructor; cbn; intuition discriminate|]. intros nm. cbn. intros [<-|[]]. exists [1;1]. split; [|reflexivity]. repeat constructor.
      * intros nm a p [E|[]]. injection E as <- <- <-. split; [intro H; apply RtoC_inj in H; lra|now rewrite H1].
      * unfold state_norm2. cbn. rewrite H1. ring.
      * cbn. lra.
    + split; [|split; [|split; [|split; [|split; reflexivity]]]].
      * split; [repeat constructor; cbn; intuition discriminate|]. intros nm. cbn. intros [<-|[<-|[]]]; [exists [0;2]|exists [1;0]]; (split; [|reflexivity]); repeat constructor.
      * intros nm a p [E|[E|[]]]; injection E as <- <- <-; (split; [exact Hs|now rewrite H2]).
      * unfold state_norm2. cbn. rewrite H2. lra.
      * cbn. lra.
Qed.
Print Assumptions C62_program.
