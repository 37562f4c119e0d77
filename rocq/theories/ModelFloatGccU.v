(* Version A of the generalized Clifford & Clifford strategy with uniform losses
   (ModelGcc.v) over arbitrary arithmetics, an arbitrary algorithm for the sums
   of floats, and random() with the equally likely values 0, 1/N, ..., (N-1)/N.
     simulation_strategies/generalized_cliffords_uniform_losses_simulation_strategy.py (22-173) *)
From mathcomp Require Import all_ssreflect all_algebra complex.
From Verif Require Import Base ModelStates ModelPerm ModelDist SpecProb ModelGcc ModelFloat ModelFloatGcc.
Set Implicit Arguments.
Unset Strict Implicit.
Unset Printing Implicit Defensive.
Import GRing.Theory Num.Theory.
Local Open Scope ring_scope.
Local Open Scope py_scope.

Section GccU.
Variable R : rcfType.
Notation CF := (ComplexField.complex_numFieldType R).
Notation prog A := (rprog R (res A)).
Notation ugcc := (ugcc R).
Variables (A : arith CF) (B : arith R) (f_abs : CF -> R) (f_sum : seq R -> R).
Variables (gray : nat -> seq nat) (fuel N : nat).

(* the weights of _initialize_simulation (76-84) *)
Definition fl_bin_weights (n : nat) (eta : R) : seq R :=
  [seq f_mul B (f_mul B (f_pow B eta l) (f_int B (Posz 'C(n, l)))) (f_pow B (f_sub B 1 eta) (n - l))
  | l <- iota 0 n.+1].

(* _initialize_simulation (52-85) *)
Definition fl_ugcc_start (s : seq nat) (x : ugcc) : res ugcc :=
  let init : R := if ug_missing x then -1 else 0 in
  let! outs := generate_possible_states fuel (Posz (sumn s)) (Posz (size s)) true in
  let eta := ug_eta x in
  let ws := fl_bin_weights (sumn s) eta in
  let! w0 := py_get ws 0 in
  let! dist := py_set [seq init | _ <- outs] 0 w0 in
  Ok (UGcc (gcc_start s (ug_gcc x)) eta dist [seq init | _ <- outs] outs ws (ug_missing x)).

(* the value recorded for an output of probability p (166-169) *)
Definition fl_recorded (t : seq nat) (p : R) : R :=
  foldl (fun v k => f_div B v (Posz k`!)) (f_mul B p (f_int B (Posz (sumn t)`!))) t.

(* the update of the distributions for one output (164-171) *)
Definition fl_record_output (x : ugcc) (t : seq nat) (p : R) (du : seq R * seq R) :
    res (seq R * seq R) :=
  rfoldl (fun du i =>
    let! o := py_get (ug_outs x) (Posz i) in
    if t == o then
      let v := fl_recorded t p in
      let! un := py_set du.2 (Posz i) v in
      let! b := py_get (ug_weights x) (Posz (sumn t)) in
      let! di := py_set du.1 (Posz i) (f_mul B v b) in
      Ok (di, un)
    else Ok du) du (iota 0 (size (ug_outs x))).

(* _calculate_new_layer_of_pmfs (140-173) *)
Definition fl_u_new_layer (x : ugcc) : res ugcc :=
  let g := ug_gcc x in
  let Ts := dgetl (g_labeled g) (sumn (g_r g)).+1 in
  let! ws := fl_layer_weights B f_sum (g_input g) Ts in
  let! outs := possible_output_states (g_r g) in
  let! st := rfoldl (fun st t =>
    let: (pmf, a, du) := st in
    let! pa := fl_pmf_entry A B f_abs gray fuel a Ts ws t in
    let! du := fl_record_output x t pa.1 du in
    Ok (rcons pmf pa.1, pa.2, du)) ([::], g_calc g, (ug_dist x, ug_unw x)) outs in
  let: (pmf, a, du) := st in
  Ok (set_ug x
    (Gcc (g_r g) (g_n g) (dset (g_pmfs g) (g_key g) pmf) a (g_input g) (g_labeled g)
       (dset (g_outputs g) (g_key g) outs) (g_key g) (g_prob g)) du).

Definition fl_u_ensure_layer (x : ugcc) : res ugcc :=
  if dget (g_pmfs (ug_gcc x)) (g_key (ug_gcc x)) is Some _ then Ok x else fl_u_new_layer x.

(* _fill_r_sample (125-138): i photons are to be considered *)
Fixpoint fl_u_fill_loop (i : nat) (x : ugcc) : prog ugcc :=
  if i is i'.+1 then
    Int N (fun k =>
      if ug_eta x <= k%:R / N%:R then fl_u_fill_loop i' x else
      draw! x := Ret (fl_u_ensure_layer x) in
      draw! g := fl_sample_from_latest_pmf B f_sum N (ug_gcc x) in
      fl_u_fill_loop i' (set_ug x g (ug_dist x, ug_unw x)))
  else Ret (Ok x).

Definition fl_u_fill_r_sample (x : ugcc) : prog ugcc :=
  let g := ug_gcc x in
  fl_u_fill_loop (g_n g)
    (set_ug x (reset_sample (nseq (size (calc_matrix (g_calc g))) 0%N) g) (ug_dist x, ug_unw x)).

(* simulate (35-50) *)
Definition fl_ugcc_simulate (s : seq nat) (k : nat) (x : ugcc) : prog (seq (seq nat) * ugcc) :=
  draw! x := Ret (fl_ugcc_start s x) in
  sample_loop fl_u_fill_r_sample (fun x => Ok (g_r (ug_gcc x))) k x.

(* compute_distribution_up_to_accuracy (87-103), the unweighted one (105-123) *)
Section Accuracy.
Variables (dist : ugcc -> R) (accuracy tol : R).
Fixpoint fl_accuracy_loop (n : nat) (x : ugcc) : prog ugcc :=
  if n is n'.+1 then
    if Num.max (f_sub B accuracy (dist x)) 0 <= tol then Ret (Ok x) else
    draw! x := fl_u_fill_r_sample x in
    fl_accuracy_loop n' x
  else Ret (Err OutOfFuel).
End Accuracy.

Definition fl_compute_distribution (accuracy tol : R) (n : nat) (s : seq nat) (x : ugcc) :
    prog (seq R * ugcc) :=
  draw! x := Ret (fl_ugcc_start s x) in
  draw! x := fl_accuracy_loop (fun x => f_sum (ug_dist x)) accuracy tol n x in
  Ret (Ok (ug_dist x, x)).

Definition fl_compute_unweighted (accuracy tol : R) (n : nat) (s : seq nat) (x : ugcc) :
    prog (seq R * ugcc) :=
  draw! x := Ret (fl_ugcc_start s x) in
  if sumn s == 0%N then Ret (Err ZeroDivisionError) else
  draw! x := fl_accuracy_loop (fun x => f_div B (f_sum (ug_unw x)) (Posz (sumn s))) accuracy tol n x in
  Ret (Ok (ug_unw x, x)).

End GccU.
