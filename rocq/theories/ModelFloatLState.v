(* The strategy with an approximated state (ModelLState.v) over arbitrary
   arithmetics for complex128 and float, with random numbers for the choices
   that have finitely many equally likely values 0, 1/N, ..., (N-1)/N.
     simulation_strategies/lossy_state_approximated_simulation_strategy.py (36-362)
     quantum_computations_utilities.py                                    (159-178)
   f_root n k is the computed power(exp(2j * pi / n), k), f_cis x the computed
   exp(1j * 2 * pi * x). *)
From mathcomp Require Import all_ssreflect all_algebra complex.
From Verif Require Import Base ModelStates ModelPerm ModelDist SpecProb ModelGcc ModelGccB ModelNet ModelBobs ModelLState
  ModelFloat ModelFloatGccB ModelFloatNet.
Set Implicit Arguments.
Unset Strict Implicit.
Unset Printing Implicit Defensive.
Import GRing.Theory Num.Theory.
Local Open Scope ring_scope.
Local Open Scope py_scope.

Section LState.
Variable R : rcfType.
Notation CF := (ComplexField.complex_numFieldType R).
Notation mat := (seq (seq CF)).
Notation prog A := (rprog R (res A)).
Variables (A : arith CF) (B : arith R) (f_sqrt : R -> R) (f_dot : seq CF -> seq CF -> CF).
Variables (f_root : nat -> nat -> CF) (f_cis : R -> CF).

(* compute_qft_matrix *)
Definition fl_qft_matrix (n : nat) : mat :=
  [seq [seq f_fdiv A (f_root n (i * j)) (f_sqrt (f_int B (Posz n)))%:C%C | j <- iota 0 n] | i <- iota 0 n].

(* generate_qft_matrix_for_first_m_modes,
   generate_random_phases_matrix_for_first_m_modes *)
Definition fl_qft_matrix_first (m all : nat) : res mat :=
  if (all < m)%N && (m != 1%N) then Err ValueError
  else Ok (np_set_corner (np_eye CF all) m (fl_qft_matrix m)).
Definition fl_phases_matrix_first (m all : nat) (draws : seq R) : res mat :=
  if (all < m)%N && (m != 1%N) then Err ValueError
  else Ok (np_diag [seq if (i < m)%N then f_cis (draws`_i) else 1 | i <- iota 0 all]).

(* __init__ (42-65) *)
Definition fl_new_lstate (cpu : nat) (a : any_calc CF) (eta : R) (level threads : int) : res (lstate R) :=
  let m := size (calc_input a) in
  let! Q := (if Posz m - level is Posz k then fl_qft_matrix_first k m else Err ValueError) in
  Ok (LState [::] [::] [::] [::] level eta (proper_threads cpu threads) a Q).

(* _get_possible_lossy_inputs_weights (183-200) *)
Definition fl_possible_weights (eta : R) (n : nat) : seq R :=
  [seq f_mul B (f_mul B (f_int B (Posz 'C(n, l))) (f_pow B eta l)) (f_pow B (f_sub B 1 eta) (n - l))
  | l <- iota 0 n.+1].

(* _prepare_not_approximated_lossy_mixed_state_parts_weights (164-181) *)
Definition fl_exact_weights (eta : R) (parts : seq (seq nat)) : res (seq R) :=
  let! whole := py_get parts (-1) in
  let ws := fl_possible_weights eta (sumn whole) in
  rmapM (fun part =>
      let! w := py_get ws (Posz (sumn part)) in
      Ok (f_fdiv B w (f_int B (Posz 'C(sumn whole, sumn part))))) parts.

(* _prepare_approximated_input_state (202-246) *)
Definition fl_prepare_approx (x : lstate R) (part : seq nat) : res (seq (seq nat) * seq R) :=
  if ~~ ((0 <= ls_level x) && (ls_level x < Posz (size (calc_matrix (ls_calc x)))))
  then Ok ([:: [::]], [:: 1])
  else
    let! parts := approx_parts part in
    let! whole := py_get parts (-1) in
    Ok (parts, fl_possible_weights (ls_eta x) (sumn whole)).

(* the preparations of simulate (107-113) *)
Variables (H : eqType) (hash : seq nat -> H).
Definition fl_lstate_start (s : seq nat) (x : lstate R) : res (lstate R) :=
  let! parts := exact_parts hash (py_upto (ls_level x) s) in
  let! ws := fl_exact_weights (ls_eta x) parts in
  let! ap := fl_prepare_approx x (py_from (ls_level x) s) in
  Ok (LState ap.1 ap.2 parts ws (ls_level x) (ls_eta x) (ls_threads x) (ls_calc x) (ls_qft x)).

(* _get_input_state_for_sampling (312-332) *)
Variables (f_check : seq R -> R) (f_search : R -> seq R -> nat) (N : nat).
Definition fl_np_choice_of (n : nat) (p : seq R) : prog nat :=
  if n != size p then Ret (Err ValueError) else fl_np_choice B f_check f_search N p.
Definition fl_lstate_input (x : lstate R) : prog (bool * seq nat) :=
  draw! i := fl_np_choice_of (size (ls_approx x)) (ls_approx_w x) in
  draw! a := Ret (py_get (ls_approx x) (Posz i)) in
  draw! j := fl_np_choice_of (size (ls_exact x)) (ls_exact_w x) in
  draw! e := Ret (py_get (ls_exact x) (Posz j)) in
  Ret (Ok (np_hstack1 e a)).

(* _get_matrix_for_approximate_sampling (348-362),
   _permuted_interferometer_matrix (334-346) *)
Variables (rand : nat -> prog (seq R)) (shuf : seq nat -> prog (seq nat)).
Definition fl_lstate_matrix (x : lstate R) : prog mat :=
  draw! P := (if Posz (size (ls_qft x)) - ls_level x is Posz k then
                draw! d := rand k in
                Ret (fl_phases_matrix_first k (size (ls_qft x)) d)
              else Ret (Err ValueError)) in
  draw! perm := shuf (iota 0 (size (calc_matrix (ls_calc x)))) in
  draw! U := Ret (np_columns (calc_matrix (ls_calc x)) perm) in
  draw! X := Ret (fl_matmul f_dot U P) in
  Ret (fl_matmul f_dot X (ls_qft x)).

(* _simulate_in_parallel (287-310) *)
Variables (f_abs : CF -> R) (f_sum : seq R -> R) (fuel : nat).
Definition fl_lstate_sample (x : lstate R) (h : gccb R) : prog (seq nat * gccb R) :=
  draw! s := fl_lstate_input x in
  draw! M := fl_lstate_matrix x in
  draw! y := (if s.1 && ~~ nilp s.2 then Ret (Err TypeError)
              else fl_gccb_simulate A B f_abs f_sum f_check f_search fuel N s.2 1 (b_set_new_matrix M h)) in
  draw! t := Ret (py_get y.1 0) in
  Ret (Ok (t, y.2)).
Definition fl_lstate_parallel (x : lstate R) (k : nat) : prog (seq (seq nat)) :=
  draw! y := sample_loop (fun st => fl_lstate_sample x st.2) (fun st => Ok st.1) k
               ([::], new_gccb (ls_calc x)) in
  Ret (Ok y.1).

(* simulate (89-130) *)
Definition fl_lstate_simulate (s : seq nat) (c : int) (x : lstate R) : prog (seq (seq nat) * lstate R) :=
  if c < 1 then Ret (Ok ([::], x)) else
  draw! x := Ret (fl_lstate_start s x) in
  draw! loads := Ret (distribute_uniformly `|c|%N (ls_threads x)) in
  draw! L := thread_loop (fl_lstate_parallel x) loads in
  Ret (Ok (L, x)).

End LState.
