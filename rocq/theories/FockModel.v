(** Model of the construction of Fock-state matrices from 2x2 optical matrices.
    Source: src/fock_state_circuit/circuit.py:758-972 and
    nodes/nodelist/node_list.py:164-211. *)
From Coq Require Import Reals List Arith Lia Bool.
From Coquelicot Require Import Complex.
From Verif Require Import Prelude NamesModel.
Import ListNotations.

(** A numpy matrix is a function of its two indices; its dimension is carried separately. *)
(** np.array of circuit.py:758-947. *)
Definition mat := nat -> nat -> C.
(** np.array of circuit.py:740-752. *)
Definition vec := nat -> C.

(** np.matmul of two d x d matrices / of a matrix and a vector. *)
(** circuit.py:836. *)
Definition mat_mul (d : nat) (A B : mat) : mat :=
  fun i j => Csum (seq 0 d) (fun k => (A i k * B k j)%C).
(** circuit.py:744-752. *)
Definition mat_vec (d : nat) (A : mat) (v : vec) : vec :=
  fun i => Csum (seq 0 d) (fun k => (A i k * v k)%C).

(** The 2x2 optical matrix [[m00, m01],[m10, m11]]. *)
Record mat2 := Mat2 { m00 : C; m01 : C; m10 : C; m11 : C }.

(** ** Tensor lists *)

(** l[i] = x, node_list.py:164-211. *)
Fixpoint set_nth {A} (l : list A) (i : nat) (x : A) : list A :=
  match l, i with
  | [], _ => []
  | _ :: r, O => x :: r
  | a :: r, S k => a :: set_nth r k x
  end.

(** l[i], l[j] = l[j], l[i] *)
(** node_list.py:180-205. *)
Definition swap_at (i j : nat) (l : list nat) : list nat :=
  set_nth (set_nth l i (nth j l 0)) j (nth i l 0).

(** NodeList._translate_channels_numbers_to_tensor_list, node_list.py:164-211.
    None: an exception is raised (equal channels, more than two channels, channel
    out of range). Negative channel numbers are not modelled. *)
Definition tensor_list_of (n : nat) (channels : list nat) : option (list nat) :=
  let tl := seq 0 n in
  match channels with
  | [] => Some tl
  | [c] => if c =? 0 then Some tl
           else if c <? n then Some (swap_at 0 c tl) else None
  | [h; v] =>
      if h =? v then None
      else if (h =? 0) && (v =? 1) then Some tl
      else if (h =? 1) && (v =? 0) then Some (swap_at 0 1 tl)
      else if (h <? n) && (v <? n) then Some (swap_at 1 v (swap_at 0 h tl)) else None
  | _ => None
  end.

(** ** The two-channel matrix *)

(** math.comb *)
(** circuit.py:896-905. *)
Fixpoint comb (n k : nat) : nat :=
  match n, k with
  | _, O => 1
  | O, S _ => 0
  | S n', S k' => comb n' k' + comb n' (S k')
  end.

(** The coefficient of circuit.py:896-898, with n, m the photon numbers of row l1:
    comb(n,j)*comb(m,k)*rac**j*tad**(n-j)*tbc**k*rbd**(m-k)*sqrt(u!v!/(n!m!)),
    rac = matrix[0][0], rbd = matrix[1][1], tbc = matrix[0][1], tad = matrix[1][0]
    (lines 871-874). *)
Definition bs_coeff (A : mat2) (n m j k : nat) : C :=
  let u := j + k in
  let v := (n - j) + (m - k) in
  (INC (comb n j) * INC (comb m k) * Cpow (m00 A) j * Cpow (m10 A) (n - j)
     * Cpow (m01 A) k * Cpow (m11 A) (m - k)
     * RtoC (sqrt (INR (fact u * fact v) / INR (fact n * fact m))))%C.

(** Assignment to one entry, circuit.py:896-910. *)
Definition upd (row : nat -> C) (i : nat) (x : C) : nat -> C :=
  fun k => if k =? i then x else row k.

(** The body of the innermost loop for row l1 = m*L+n, lines 891-910 (make_unitary = True,
    the only value used). *)
Definition bs_step (L : nat) (A : mat2) (n m : nat) (row : nat -> C) (jk : nat * nat) : nat -> C :=
  let (j, k) := jk in
  let u := j + k in
  let v := (n - j) + (m - k) in
  if (u <? L) && (v <? L) then
    let l2 := v * L + u in
    let row1 := upd row l2 (row l2 + bs_coeff A n m j k)%C in
    if (L <=? n + m) || (L <=? u + v) then
      upd row1 l2 (if (n =? u) && (m =? v) then RtoC 1 else RtoC 0)
    else row1
  else row.

(** for j in range(0,n+1): for k in range(0,m+1) *)
(** circuit.py:891-910. *)
Definition jk_pairs (n m : nat) : list (nat * nat) :=
  flat_map (fun j => map (fun k => (j, k)) (seq 0 (S m))) (seq 0 (S n)).

(** fock_matrix for two channels, lines 875-910. Row and column index: v*L+u with u the
    photon number of the first channel. *)
Definition fock2 (L : nat) (A : mat2) : mat :=
  fun l1 => let n := l1 mod L in
            let m := (l1 - n) / L in
            fold_left (bs_step L A n m) (jk_pairs n m) (fun _ => RtoC 0).

(** ** Scaling up and re-ordering *)

(** np.kron(np.identity(L), B) with B of dimension p. *)
(** circuit.py:919-925. *)
Definition kron_id (p : nat) (B : mat) : mat :=
  fun i j => if i / p =? j / p then B (i mod p) (j mod p) else RtoC 0.

(** The scaling loop of lines 919-925, as a fold over n = 1..no_of_optical_channels;
    the loop variable carries (dimension, matrix) of fock_matrix_scaled. *)
Definition scale_step (L : nat) (F : mat) (acc : option (nat * mat)) (n : nat) : option (nat * mat) :=
  if L ^ n <? L ^ 2 then acc
  else if L ^ n =? L ^ 2 then Some (L ^ 2, F)
  else match acc with
       | None => None
       | Some (p, B) => Some (L * p, kron_id p B)
       end.
(** The embedding into all channels, circuit.py:918-925. *)
Definition scaled (L N : nat) (F : mat) : option (nat * mat) :=
  fold_left (scale_step L F) (seq 1 N) None.

(** photon_number_selection: 'all', '=N' or '<=N'. *)
(** circuit.py:927-938. *)
Inductive selection := SelAll | SelEq (k : nat) | SelLe (k : nat).

(** sum(values), circuit.py:927-938. *)
Definition sum_values (vs : values) : nat := fold_left Nat.add vs 0.

(** states_indices_to_keep, lines 931-942; [keys] is what OpticalValues.keys() returns. *)
Definition keep_indices (D : dims) (keys : list values) (sel : selection) : list nat :=
  match sel with
  | SelAll => seq 0 (size_of_basis D)
  | SelEq k => map (index_of_values D) (filter (fun vs => sum_values vs =? k) keys)
  | SelLe k => map (index_of_values D) (filter (fun vs => sum_values vs <=? k) keys)
  end.

(** __generate_single_node_fock_matrix_from_optical_matrix, lines 841-947 (tensor_list given).
    [keys] is the current result of OpticalValues.keys(). The result is the reduced
    matrix with the list of kept indices. *)
Definition single_node_matrix (D : dims) (keys : list values) (A : mat2) (tl : list nat)
    (sel : selection) : mat * list nat :=
  let M := match scaled (dL D) (dN D) (fock2 (dL D) A) with
           | Some (_, B) => B | None => fun _ _ => RtoC 0 end in
  let new_order := map (fun vs => reorder D vs tl) keys in
  let keep := keep_indices D keys sel in
  let order_and_selection := map (fun i => nth i new_order 0) keep in
  (fun a b => M (nth a order_and_selection 0) (nth b order_and_selection 0), keep).

(** An optical node: its matrix and tensor list. *)
(** matrix_optical and tensor_list of a node, optical_nodes.py:203-240. *)
Record onode := ONode { on_matrix : mat2; on_tl : list nat }.

(** __generate_fock_state_matrix for a list of optical nodes, lines 758-839.
    The list must be non-empty (nodes_to_be_evaluated[0]); the product is accumulated
    as matmul(next, previous). *)
Definition fock_state_matrix (D : dims) (keys : list values) (nodes : list onode)
    (sel : selection) : option (mat * list nat) :=
  match nodes with
  | [] => None
  | nd :: rest =>
      let first := single_node_matrix D keys (on_matrix nd) (on_tl nd) sel in
      Some (fold_left
        (fun acc nd' =>
           let mk := single_node_matrix D keys (on_matrix nd') (on_tl nd') sel in
           (mat_mul (length (snd mk)) (fst mk) (fst acc), snd mk)) rest first)
  end.

(** The application of the reduced matrix to a full vector and expansion to the full basis,
    circuit.py:744-752. *)
Definition apply_reduced (M : mat) (keep : list nat) (v : vec) : vec :=
  let reduced := fun a => v (nth a keep 0) in
  let out := mat_vec (length keep) M reduced in
  fold_left (fun (w : vec) ai => upd w (snd ai) (out (fst ai)))
    (combine (seq 0 (length keep)) keep) (fun _ => RtoC 0).

(** The keys the matrix construction sees on a circuit whose name tables are in their
    initial state. *)
(** optical_values_component_names.py:411-425 before any lookup. *)
Definition fresh_keys (D : dims) : list values := fst (ov_keys D (cache_init D)).

(** A circuit consisting of optical nodes only: each entry is the optical matrix of the
    node with its channel list; the constructor turns the channel list into a tensor
    list (optical_nodes.py, every node method ends in
    _translate_channels_numbers_to_tensor_list). None: an exception is raised. *)
(** The tensor list of every node is computed when it is added, node_list.py:164-211. *)
Fixpoint place (D : dims) (gates : list (mat2 * list nat)) : option (list onode) :=
  match gates with
  | [] => Some []
  | (A, chs) :: r =>
      match tensor_list_of (dN D) chs, place D r with
      | Some tl, Some nds => Some (ONode A tl :: nds)
      | _, _ => None
      end
  end.

(** FockStateCircuit.get_fock_state_matrix(nodes = all), circuit.py:956-970, on a fresh
    circuit: the complete Fock matrix. *)
Definition circuit_matrix (D : dims) (gates : list (mat2 * list nat)) : option mat :=
  match place D gates with
  | Some nds => option_map fst (fock_state_matrix D (fresh_keys D) nds SelAll)
  | None => None
  end.
