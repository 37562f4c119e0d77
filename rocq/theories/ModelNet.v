(* Model of the network part:
     boson_sampling_utilities/boson_sampling_utilities.py  (240-342, 505-542)
     network_simulation_strategy/lossless_network_simulation_strategy.py (11-28)
     network_simulation_strategy/lossy_network_simulation_strategy.py    (11-45)
     quantum_computations_utilities.py                     (81-93, 159-178)
     simulation_strategies/lossy_networks_generalized_cliffords_simulation_strategy.py (25-88)
   numpy matrices are lists of rows, real numbers a real closed field R,
   complex numbers R[i].  The singular value decomposition of numpy and the
   function x |-> exp(2 pi i x) are parameters. *)
From mathcomp Require Import all_ssreflect all_algebra complex.
From Verif Require Import Base ModelStates ModelPerm ModelDist SpecProb ModelGcc ModelGccB.
Set Implicit Arguments.
Unset Strict Implicit.
Unset Printing Implicit Defensive.
Import GRing.Theory Num.Theory.
Local Open Scope ring_scope.
Local Open Scope py_scope.

(* ------------------------------------------------------------------ *)
(* numpy *)
Section Np.
Variable F : ringType.
Notation mat := (seq (seq F)).

Definition np_get (A : mat) (i j : nat) : F := nth 0 (nth [::] A i) j.
Definition np_cols (A : mat) : nat := size (head [::] A).
Definition np_zeros (r c : nat) : mat := nseq r (nseq c 0).
Definition np_eye (n : nat) : mat := [seq [seq (i == j)%:R | j <- iota 0 n] | i <- iota 0 n].
Definition np_diag (v : seq F) : mat :=
  [seq [seq if i == j then v`_i else 0 | j <- iota 0 (size v)] | i <- iota 0 (size v)].

(* side by side, on top of each other: the other dimension has to agree *)
Definition np_hstack (A B : mat) : res mat :=
  if size A == size B then Ok [seq x.1 ++ x.2 | x <- zip A B] else Err ValueError.
Definition np_vstack (A B : mat) : res mat :=
  if np_cols A == np_cols B then Ok (A ++ B) else Err ValueError.
Definition np_block (A B C D : mat) : res mat :=
  let! X := np_hstack A B in
  let! Y := np_hstack C D in
  np_vstack X Y.

(* A @ B *)
Definition np_matmul (A B : mat) : res mat :=
  if all (fun row => size row == size B) A then
    Ok [seq [seq foldl +%R 0 [seq row`_k * np_get B k j | k <- iota 0 (size B)]
            | j <- iota 0 (np_cols B)] | row <- A]
  else Err ValueError.

(* dot(A, v) for a one-dimensional v *)
Definition np_dot (A : mat) (v : seq F) : res (seq F) :=
  if all (fun row => size row == size v) A then
    Ok [seq foldl +%R 0 [seq row`_k * v`_k | k <- iota 0 (size v)] | row <- A]
  else Err ValueError.

(* delete(l, i) of a one-dimensional array *)
Definition np_delete (A : Type) (l : seq A) (i : nat) : seq A := take i l ++ drop i.+1 l.
(* while n < len(l): l = delete(l, len(l) - 1); at most len(l) turns *)
Definition trim_to (A : Type) (n : nat) (l : seq A) : seq A :=
  iter (size l) (fun l => if (n < size l)%N then np_delete l (size l).-1 else l) l.

(* A[0:m, 0:m] = B *)
Definition np_set_corner (A : mat) (m : nat) (B : mat) : mat :=
  [seq [seq if (i < m)%N && (j < m)%N then np_get B i j else np_get A i j
       | j <- iota 0 (size (nth [::] A i))] | i <- iota 0 (size A)].

End Np.

Section Net.
Variable R : rcfType.
Notation CF := (ComplexField.complex_numFieldType R).
Notation mat := (seq (seq CF)).
Notation prog A := (rprog R (res A)).

(* numpy.linalg.svd *)
Variable svd : mat -> res (mat * seq R * mat).

(* get_modes_transmissivity_values_from_matrix (240-261) *)
Definition modes_transmissivities (M : mat) : res (seq R) :=
  let! vsu := svd M in
  Ok [seq x ^+ 2 | x <- rev vsu.1.2].

(* _compute_loss_transfer_matrix_expansion (264-284) *)
Definition loss_expansion (t : seq R) : mat :=
  let losses := [seq 1 - x | x <- t] in
  let losses := [seq if x < 0 then 0 else x | x <- losses] in
  np_diag [seq (Num.sqrt x)%:C%C : CF | x <- losses].

(* prepare_interferometer_matrix_in_expanded_space (287-342) *)
Definition prepare_expanded (M : mat) : res mat :=
  let! vsu := svd M in
  let: (V, s, U) := vsu in
  let Z := [seq [seq 0 | _ <- row] | row <- V] in
  let I := np_eye CF (size V) in
  let! EV := np_block V Z Z I in
  let! EU := np_block U Z Z I in
  let ts := [seq x ^+ 2 | x <- s] in
  let L := loss_expansion ts in
  let S := np_diag [seq x%:C%C : CF | x <- s] in
  let! ES := np_block S L L S in
  let! X := np_matmul EV ES in
  np_matmul X EU.

(* LosslessNetworkSimulationStrategy.simulate *)
Definition lossless_network (M : mat) (v : seq CF) : res (seq CF) := np_dot M v.

(* LossyNetworkSimulationStrategy: __init__, simulate *)
Definition lossy_network_init (M : mat) : res mat := prepare_expanded M.
Definition lossy_network_simulate (E : mat) (v : seq CF) : res (seq CF) :=
  if size v != (size E)./2 then Err ValueError else    (* reshape *)
  let col := [seq [:: x] | x <- v] in
  let! ex := np_vstack col [seq [:: 0] | _ <- v] in
  let! ev := np_matmul E ex in
  Ok (flatten (trim_to (size v) ev)).

(* exp(2 pi i x) *)
Variable cis : R -> CF.

(* compute_qft_matrix (159-178); omega ** k is a power of exp(2 pi i / n) *)
Definition compute_qft_matrix (n : nat) : mat :=
  if n == 0%N then [::] else
  let omega := cis (1 / n%:R) in
  [seq [seq omega ^+ (i * j) / (Num.sqrt n%:R)%:C%C | j <- iota 0 n] | i <- iota 0 n].

(* generate_qft_matrix_for_first_m_modes (505-521), for m at most all modes *)
Definition qft_matrix_first (m all : nat) : res mat :=
  if (all < m)%N && (m != 1%N) then Err ValueError   (* shapes do not match *)
  else Ok (np_set_corner (np_eye CF all) m (compute_qft_matrix m)).

(* generate_random_phases_matrix_for_first_m_modes (524-542), given the m
   numbers drawn by rand *)
Definition phases_matrix_first (m all : nat) (draws : seq R) : res mat :=
  if (all < m)%N && (m != 1%N) then Err ValueError
  else Ok (np_diag [seq if (i < m)%N then cis (draws`_i) else 1 | i <- iota 0 all]).

(* ------------------------------------------------------------------ *)
(* LossyNetworksGeneralizedCliffordsSimulationStrategy.  The constructor
   stores the expanded matrix in the calculator of the caller: it returns the
   strategy and that calculator. *)
Definition new_lossy_net (a : any_calc CF) : res (gccb R * any_calc CF) :=
  let! E := prepare_expanded (calc_matrix a) in
  let a := set_matrix E a in
  Ok (new_gccb a, a).

(* set_new_matrix (85-88) *)
Definition lossy_net_set_new_matrix (M : mat) (b : gccb R) : res (gccb R) :=
  let! E := prepare_expanded M in Ok (b_set_new_matrix E b).

(* simulate (53-83) *)
Definition lossy_net_simulate (fuel : nat) (s : seq nat) (k : nat) (b : gccb R) :
    prog (seq (seq nat) * gccb R) :=
  draw! x := gccb_simulate fuel (s ++ nseq (size s) 0%N) k b in
  Ret (Ok ([seq trim_to (size s) t | t <- x.1], x.2)).

End Net.
