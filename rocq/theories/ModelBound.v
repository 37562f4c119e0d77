(* Model of the bounds on the number of samples of
   quantum_computations_utilities.py (95-127, 147-156), on the real numbers of
   the standard library.  Floating-point numbers are real numbers; int() cuts
   off the fraction. *)
From Coq Require Import Reals ZArith.
Local Open Scope R_scope.

Definition py_trunc (x : R) : Z := if Rle_dec 0 x then Int_part x else (- Int_part (- x))%Z.

(* count_tv_distance_error_bound_of_experiment_results (95-127) *)
Definition tv_error_bound (outcomes_number samples_number : Z) (error_probability : R) : R :=
  let error_bound := - ln error_probability in
  let error_bound := error_bound + IZR outcomes_number * ln 2 in
  let error_bound := error_bound / (2 * IZR samples_number) in
  sqrt error_bound.

(* compute_minimal_number_of_samples_for_desired_accuracy (147-156) *)
Definition minimal_samples (outcomes_number : Z) (error_probability expected_distance : R) : Z :=
  let samples_number := - ln error_probability in
  let samples_number := samples_number + ln 2 * IZR outcomes_number in
  let samples_number := samples_number / (2 * expected_distance ^ 2) in
  (py_trunc samples_number + 1)%Z.
