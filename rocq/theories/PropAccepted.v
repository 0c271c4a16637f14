(** C41: which Hamiltonians have a transition matrix. *)
From Coq Require Import Reals List Arith Lia Bool.
From Coquelicot Require Import Complex.
From Verif Require Import Prelude NamesModel FockModel StateModel CollectionModel EvalModel OperatorModel.
Import ListNotations.
Open Scope nat_scope.

(** The character at position [k] of a string is '+' or '-'. *)
Definition ladder_at (w : list command) (k : nat) : Prop := nth_error w k = Some Plus \/ nth_error w k = Some Minus.
(** The number of different channels in a list. *)
Definition different (chs : list nat) (n : nat) : Prop := exists l, NoDup l /\ length l = n /\ forall c, In c l <-> In c chs.

Lemma different_number chs n : different chs n -> n = number_of_channels chs.
Proof.
  intros (l & N & <- & H). unfold number_of_channels. apply Nat.le_antisymm; apply NoDup_incl_length; auto.
  - intros c Hc. apply nodup_In. now apply H.
  - apply NoDup_nodup.
  - intros c Hc. apply nodup_In in Hc. now apply H.
Qed.
Lemma word_ok_nth n chs : forall w, word_ok n (combine chs w) = true <->
  forall k c, nth_error chs k = Some c -> ladder_at w k -> c < n.
Proof.
  unfold ladder_at. induction chs as [|c0 chs IH]; intros w.
  - split; [intros _ k c H; destruct k; discriminate|reflexivity].
  - destruct w as [|x w].
    + split; [intros _ k c _ [H|H]; destruct k; discriminate|reflexivity].
    + cbn [combine]. unfold word_ok in *. cbn [forallb]. rewrite andb_true_iff, IH. split.
      * intros [A B] [|k] c Hk Hw; cbn [nth_error] in Hk, Hw; [|now apply (B k)].
        injection Hk as <-. cbn [fst snd] in A. destruct Hw as [Hw|Hw]; injection Hw as ->; now apply Nat.ltb_lt.
      * intros H. split.
        -- cbn [fst snd]. destruct x; auto; apply Nat.ltb_lt; apply (H 0 c0); cbn; auto.
        -- intros k c Hk Hw. now apply (H (S k) c).
Qed.

(** C41: a list of Hamiltonians is accepted when its first channel list is not empty and every '+'
    and '-' stands at a channel number below the number of different channels; the other characters
    may stand at any channel. *)
Theorem C41_accepted : forall L power h hs n, h_channels h <> [] -> different (h_channels h) n ->
  (forall h' w z k c, In h' (h :: hs) -> In (w, z) (h_operators h') -> nth_error (h_channels h) k = Some c ->
     ladder_at w k -> c < n) ->
  exists T, transition_matrix L power (h :: hs) = Some T.
Proof.
  intros L power h hs n Hne Hd H. apply different_number in Hd. subst n. unfold transition_matrix. cbv zeta. cbn [operator_channels].
  destruct (h_channels h) as [|c0 cr] eqn:Ec; [contradiction|]. rewrite <- Ec in *. clear Hne.
  assert (E : forallb (fun h0 => forallb (fun op => word_ok (number_of_channels (h_channels h)) (combine (h_channels h) (fst op))) (h_operators h0)) (h :: hs) = true).
  { apply forallb_forall. intros h' Hh. apply forallb_forall. intros [w z] Hop. apply word_ok_nth. intros k c Hk Hw. exact (H h' w z k c Hh Hop Hk Hw). }
  rewrite E. eauto.
Qed.
Print Assumptions C41_accepted.

(** The claim "the operator channels only say which characters belong to the same channel" is false:
    when the first '+' or '-' of some string stands at a channel number that is not below the number
    of different channels, there is no operator (IndexError). *)
Theorem C41_channel_numbers_refuted : forall L power h hs n h' w z k c, different (h_channels h) n ->
  In h' (h :: hs) -> In (w, z) (h_operators h') -> nth_error (h_channels h) k = Some c -> ladder_at w k ->
  (forall j, j < k -> ~ ladder_at w j) -> n <= c ->
  transition_matrix L power (h :: hs) = None.
Proof.
  intros L power h hs n h' w z k c Hd Hh Hop Hk Hw _ Hc. apply different_number in Hd. subst n. unfold transition_matrix. cbv zeta. cbn [operator_channels].
  destruct (h_channels h) as [|c0 cr] eqn:Ec; [reflexivity|]. rewrite <- Ec in *.
  match goal with |- (if ?b then _ else _) = None => destruct b eqn:E end; [|reflexivity]. exfalso.
  rewrite forallb_forall in E. specialize (E h' Hh). rewrite forallb_forall in E. specialize (E (w, z) Hop). cbn [fst] in E.
  rewrite (word_ok_nth (number_of_channels (h_channels h)) (h_channels h) w) in E. specialize (E k c Hk Hw). lia.
Qed.
Print Assumptions C41_channel_numbers_refuted.

(** A string with a character that is ignored at channel 7, and the beam splitter written for the
    channels 3 and 7 instead of 0 and 1. *)
Example C41_accepted_case : (exists T, transition_matrix 3 25 [Ham [([Plus; Minus; Skip], RtoC 1)] [0; 1; 7]] = Some T) /\
  transition_matrix 3 25 [Ham [([Plus; Minus], RtoC 1)] [3; 7]] = None.
Proof.
  split.
  - apply (C41_accepted 3 25 (Ham [([Plus; Minus; Skip], RtoC 1)] [0; 1; 7]) [] 3); [discriminate| |].
    + exists [0; 1; 7]. split; [|split; [reflexivity|intros; reflexivity]]. repeat constructor; cbn; intuition discriminate.
    + intros h' w z k c [<-|[]] [E|[]] Hk Hw. injection E as <- _. destruct k as [|[|[|k]]]; cbn in Hk, Hw.
      * injection Hk as <-. lia.
      * injection Hk as <-. lia.
      * destruct Hw; discriminate.
      * destruct k; discriminate.
  - apply (C41_channel_numbers_refuted 3 25 _ [] 2 (Ham [([Plus; Minus], RtoC 1)] [3; 7]) [Plus; Minus] (RtoC 1) 0 3).
    + exists [3; 7]. split; [|split; [reflexivity|intros; reflexivity]]. repeat constructor; cbn; intuition discriminate.
    + now left.
    + now left.
    + reflexivity.
    + left. reflexivity.
    + intros j Hj. lia.
    + lia.
Qed.
