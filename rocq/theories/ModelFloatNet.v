(* The network part (ModelNet.v) over an arbitrary arithmetic.
     boson_sampling_utilities/boson_sampling_utilities.py  (240-342)
     network_simulation_strategy/lossless_network_simulation_strategy.py (11-28)
     network_simulation_strategy/lossy_network_simulation_strategy.py    (11-45)
     simulation_strategies/lossy_networks_generalized_cliffords_simulation_strategy.py (25-88)
   B are the operations on real numbers, f_sqrt is the square root, f_dot the
   sum of products of @ and dot.  Stacking, zeros, ones and trimming are exact. *)
From mathcomp Require Import all_ssreflect all_algebra complex.
From Verif Require Import Base ModelStates ModelPerm ModelDist SpecProb ModelGcc ModelGccB ModelNet ModelFloat ModelFloatGccB.
Set Implicit Arguments.
Unset Strict Implicit.
Unset Printing Implicit Defensive.
Import GRing.Theory Num.Theory.
Local Open Scope ring_scope.
Local Open Scope py_scope.

Section Net.
Variable R : rcfType.
Notation CF := (ComplexField.complex_numFieldType R).
Notation mat := (seq (seq CF)).
Notation prog A := (rprog R (res A)).
Variables (B : arith R) (f_sqrt : R -> R) (f_dot : seq CF -> seq CF -> CF).

(* P @ Q and dot(P, v) *)
Definition fl_matmul (P Q : mat) : res mat :=
  if all (fun row => size row == size Q) P then
    Ok [seq [seq f_dot row [seq np_get Q k j | k <- iota 0 (size Q)]
            | j <- iota 0 (np_cols Q)] | row <- P]
  else Err ValueError.
Definition fl_dot (P : mat) (v : seq CF) : res (seq CF) :=
  if all (fun row => size row == size v) P then Ok [seq f_dot row v | row <- P]
  else Err ValueError.

(* numpy.linalg.svd *)
Variable svd : mat -> res (mat * seq R * mat).

(* get_modes_transmissivity_values_from_matrix (240-261) *)
Definition fl_modes_transmissivities (M : mat) : res (seq R) :=
  let! vsu := svd M in
  Ok [seq f_pow B x 2 | x <- rev vsu.1.2].

(* _compute_loss_transfer_matrix_expansion (264-284) *)
Definition fl_loss_expansion (t : seq R) : mat :=
  let losses := [seq f_sub B 1 x | x <- t] in
  let losses := [seq if x < 0 then 0 else x | x <- losses] in
  np_diag [seq (f_sqrt x)%:C%C : CF | x <- losses].

(* prepare_interferometer_matrix_in_expanded_space (287-342) *)
Definition fl_prepare_expanded (M : mat) : res mat :=
  let! vsu := svd M in
  let: (V, s, U) := vsu in
  let Z := [seq [seq 0 | _ <- row] | row <- V] in
  let I := np_eye CF (size V) in
  let! EV := np_block V Z Z I in
  let! EU := np_block U Z Z I in
  let ts := [seq f_pow B x 2 | x <- s] in
  let L := fl_loss_expansion ts in
  let S := np_diag [seq x%:C%C : CF | x <- s] in
  let! ES := np_block S L L S in
  let! X := fl_matmul EV ES in
  fl_matmul X EU.

(* LosslessNetworkSimulationStrategy.simulate *)
Definition fl_lossless_network (M : mat) (v : seq CF) : res (seq CF) := fl_dot M v.

(* LossyNetworkSimulationStrategy.simulate *)
Definition fl_lossy_network_simulate (E : mat) (v : seq CF) : res (seq CF) :=
  if size v != (size E)./2 then Err ValueError else
  let col := [seq [:: x] | x <- v] in
  let! ex := np_vstack col [seq [:: 0] | _ <- v] in
  let! ev := fl_matmul E ex in
  Ok (flatten (trim_to (size v) ev)).

(* LossyNetworksGeneralizedCliffordsSimulationStrategy *)
Definition fl_new_lossy_net (a : any_calc CF) : res (gccb R * any_calc CF) :=
  let! E := fl_prepare_expanded (calc_matrix a) in
  let a := set_matrix E a in
  Ok (new_gccb a, a).

Definition fl_lossy_net_set_new_matrix (M : mat) (b : gccb R) : res (gccb R) :=
  let! E := fl_prepare_expanded M in Ok (b_set_new_matrix E b).

Variables (A : arith CF) (f_abs : CF -> R) (f_sum f_check : seq R -> R).
Variables (f_search : R -> seq R -> nat) (fuel N : nat).

Definition fl_lossy_net_simulate (s : seq nat) (k : nat) (b : gccb R) :
    prog (seq (seq nat) * gccb R) :=
  draw! x := fl_gccb_simulate A B f_abs f_sum f_check f_search fuel N (s ++ nseq (size s) 0%N) k b in
  Ret (Ok ([seq trim_to (size s) t | t <- x.1], x.2)).

End Net.
