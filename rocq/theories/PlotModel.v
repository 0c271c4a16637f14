(** Model of the histograms and correlations: src/fock_state_circuit/visualization/plot.py.
    The figures (matplotlib) are not modelled, only the dictionaries that are drawn or, with
    histo_output_instead_of_plot / correlation_output_instead_of_plot, returned. *)
From Coq Require Import Reals ZArith List Arith Bool.
From Coquelicot Require Import Complex.
From Verif Require Import Prelude NamesModel FockModel StateModel CollectionModel EvalModel ColumnModel.
Import ListNotations.

(** {initial_state: [{'output_state': .., 'probability': ..}, ..]} *)
(** plot.py:95-130. *)
Definition histogram := list (ident * list (name * R)).

(** int(number) for a float: the fractional part is dropped (rounding towards 0). *)
(** plot.py:198. *)
Definition truncate (x : R) : Z := if Rle_dec 0 x then Int_part x else (- Int_part (- x))%Z.
(** abs(int(number)%self._length_of_fock_state), plot.py:198. *)
Definition plot_digit (D : dims) (x : R) : nat := Z.to_nat (Z.abs (Z.modulo (truncate x) (Z.of_nat (dL D)))).
(** _create_state_name_from_list_of_photon_numbers, plot.py:181-201. name[::-1] reverses the
    characters of the whole string. *)
Definition plot_name (D : dims) (xs : list R) : name :=
  let nm := concat (map (fun x => pad (digits_per_channel D) (plot_digit D x)) xs) in
  if dLeft D then nm else rev nm.
(** _create_list_of_values_from_name, plot.py:203-215. *)
Definition plot_values (D : dims) (nm : name) : values := map parse (chunks (digits_per_channel D) nm).

(** The for .. else loop, plot.py:96-103. *)
Fixpoint add_outcome (o : name) (p : R) (l : list (name * R)) : list (name * R) :=
  match l with
  | [] => [(o, p)]
  | (o', q) :: r => if leqb o o' then (o', (q + p)%R) :: r else (o', q) :: add_outcome o p r
  end.
(** The loop over the states, plot.py:83-103. None: a channel number is too large (IndexError).
    map_outcome_to_classical_value is never read. *)
Definition histo_step (D : dims) (chs : list nat) (inits : list ident) (acc : option histogram) (st : state)
  : option histogram :=
  match acc with
  | None => None
  | Some h =>
      if (0 <? length inits) && negb (existsb (leqb (s_init st)) inits) then Some h else
      match option_list (map (nth_error (s_classical st)) chs) with
      | None => None
      | Some xs => let l := or_else (dget leqb (s_init st) h) [] in
                   Some (dset leqb (s_init st) (add_outcome (plot_name D xs) (s_cum st) l) h)
      end
  end.
(** output_states, plot.py:106-111. *)
Definition output_states (h : histogram) : list name :=
  fold_left (fun acc o => if existsb (leqb o) acc then acc else acc ++ [o])
            (flat_map (fun x => map fst (snd x)) h) [].
(** The outcomes with probability zero, plot.py:116-121. The order in which list(set) lists the
    missing outcomes is not specified in Python: [ord l] stands for this order for label [l]. *)
Definition fill_zeros (ord : ident -> list name -> list name) (h : histogram) : histogram :=
  map (fun x => (fst x, snd x ++ map (fun o => (o, 0%R))
                  (ord (fst x) (filter (fun o => negb (existsb (leqb o) (map fst (snd x)))) (output_states h))))) h.
(** The histogram of plot and _pre_plot, plot.py:100-130 and 163-178. *)
Definition histogram_of (ord : ident -> list name -> list name) (D : dims) (chs : list nat) (inits : list ident)
    (sts : list state) : option histogram :=
  option_map (fill_zeros ord) (fold_left (histo_step D chs inits) sts (Some [])).

(** _pre_plot, plot.py:163-179. *)
Definition pre_plot (rnd : nat -> nat) (cs : coll) : option coll :=
  match columns_of (co_items cs) with
  | None => None
  | Some cc =>
      match split_groups (co_eps cs) (co_ncl cs) (all_groups cc) with
      | None => None
      | Some gs =>
          match option_list (map (column_state (co_D cs) (co_eps cs) (co_ncl cs) true) (flat_map group_columns gs)) with
          | None => None
          | Some sts => collect rnd cs sts
          end
      end
  end.

(** plot(.., histo_output_instead_of_plot=True), plot.py:41-124. *)
Definition plot (rnd : nat -> nat) (ord : ident -> list name -> list name) (cs : coll) (chs : list nat)
    (inits : list ident) : option histogram :=
  let chs := match chs with [] => seq 0 (co_ncl cs) | _ => chs end in
  match (if all_have AuxPhotonResolution (co_items cs) then pre_plot rnd cs else Some cs) with
  | None => None
  | Some c => histogram_of ord (co_D cs) chs inits (map snd (co_items c))
  end.

(** One correlation, plot.py:236-246; None: a channel number is too large, or the weights add up
    to 0 (division by zero). *)
Definition correlation_step (D : dims) (combi : nat * nat) (acc : option (R * R)) (e : name * R) : option (R * R) :=
  match acc with
  | None => None
  | Some (corr, count) =>
      let vs := plot_values D (fst e) in
      match nth_error vs (fst combi), nth_error vs (snd combi) with
      | Some a, Some b => Some ((if a =? b then corr + snd e else corr - snd e)%R, (count + snd e)%R)
      | _, _ => None
      end
  end.
(** One correlation value, plot.py:236-246. *)
Definition correlation (D : dims) (combi : nat * nat) (l : list (name * R)) : option R :=
  match fold_left (correlation_step D combi) l (Some (0%R, 0%R)) with
  | Some (corr, count) => if Req_EM_T count 0 then None else Some (corr / count)%R
  | None => None
  end.
(** _correlation_from_collection, plot.py:217-247. *)
Definition correlations (rnd : nat -> nat) (ord : ident -> list name -> list name) (cs : coll)
    (combis : list (nat * nat)) : option (list (ident * list R)) :=
  match plot rnd ord cs [] [] with
  | None => None
  | Some h => option_list (map (fun x =>
                option_map (pair (fst x)) (option_list (map (fun k => correlation (co_D cs) k (snd x)) combis))) h)
  end.
(** plot_correlations(.., correlation_output_instead_of_plot=True), plot.py:249-292. *)
Definition plot_correlations (rnd : nat -> nat) (ord : ident -> list name -> list name) (cs : coll)
    (combis : list (nat * nat)) (inits : list ident) : option (list (ident * list R)) :=
  option_map (fun d => if 0 <? length inits
                       then filter (fun x => existsb (leqb (fst x)) inits) d else d)
    (correlations rnd ord cs combis).
