(* The strategies with independent particles (ModelFixed.v) over arbitrary
   arithmetics for complex128 and float, with random numbers for the particles
   that have finitely many equally likely values 0, 1/N, ..., (N-1)/N.
     simulation_strategies/fixed_loss_simulation_strategy.py   (42-145)
     simulation_strategies/uniform_loss_simulation_strategy.py (32-72)
   f_cis is the computed exp(1j * 2 * pi * x).  The probabilities conj(z) * z have
   the real part re re - (- im) im; their imaginary parts re im + (- im) re are
   exact zeros, so comparisons use the real parts. *)
From mathcomp Require Import all_ssreflect all_algebra complex.
From Verif Require Import Base ModelStates ModelPerm ModelDist SpecProb ModelGcc ModelGccB ModelNet ModelFixed
  ModelFloat ModelFloatGccB ModelFloatNet.
Set Implicit Arguments.
Unset Strict Implicit.
Unset Printing Implicit Defensive.
Import GRing.Theory Num.Theory.
Local Open Scope ring_scope.
Local Open Scope py_scope.

Section Fixed.
Variable R : rcfType.
Notation CF := (ComplexField.complex_numFieldType R).
Notation mat := (seq (seq CF)).
Notation prog A := (rprog R (res A)).
Variables (A : arith CF) (B : arith R) (f_sqrt : R -> R) (f_dot : seq CF -> seq CF -> CF).
Variables (svd : mat -> res (mat * seq R * mat)) (f_cis : R -> CF).
Variables (rand : nat -> prog (seq R)) (N : nat).

(* the network strategies *)
Definition fl_network_simulate (net : network R) (v : seq CF) : res (seq CF) :=
  match net with
  | LosslessNetwork M => fl_lossless_network f_dot M v
  | LossyNetwork E => fl_lossy_network_simulate f_dot E v
  end.

(* the object (24-40) *)
Definition fl_new_fixed (M : mat) (left modes : nat) (net : option (network R)) : res (fixed R) :=
  if net is Some net then Ok (Fixed left modes net) else
  let! E := fl_prepare_expanded B f_sqrt f_dot svd M in
  Ok (Fixed left modes (LossyNetwork E)).

(* _prepare_initial_state, _randomize_modes_phases (71-106) *)
Definition fl_prepare_state (modes n : nat) : prog (seq CF) :=
  let st := [seq f_fdiv B (if (i < n)%N then 1 else 0) (f_sqrt (f_int B (Posz n))) | i <- iota 0 modes] in
  draw! d := rand modes in
  Ret (Ok [seq f_mul A (f_cis d`_i) (st`_i)%:C%C | i <- iota 0 modes]).

(* _calculate_probabilities (108-119) *)
Definition fl_intensity (z : CF) : R :=
  f_sub B (f_mul B (complex.Re z) (complex.Re z)) (f_mul B (- complex.Im z) (complex.Im z)).
Definition fl_probabilities (n : nat) (ev : seq CF) : seq (option R) :=
  [seq if n == 0%N then None else Some (fl_intensity z) | z <- ev].

(* the while loop (137-141) *)
Definition fl_nan_add (p q : option R) : option R :=
  if p is Some p then if q is Some q then Some (f_add B p q) else None else None.
Fixpoint fl_find_mode (x : R) (prob : option R) (i : nat) (rest : seq (option R)) : nat :=
  if above x prob then
    if rest is p :: rest' then fl_find_mode x (fl_nan_add prob p) i.+1 rest' else i.+1
  else i.

(* one turn of the for loop (133-143) *)
Definition fl_place (ps : seq (option R)) (x : R) (out : seq nat) : res (seq nat) :=
  if ps is p :: rest then
    let i := fl_find_mode x p 0 rest in
    if i != size ps then incr_at out (Posz i) else Ok out
  else Err IndexError.

(* _calculate_approximation_of_boson_sampling_outcome (121-145) *)
Fixpoint fl_place_all (ps : seq (option R)) (left : nat) (out : seq nat) : prog (seq nat) :=
  if left is left'.+1 then
    Int N (fun k => draw! out := Ret (fl_place ps (k%:R / N%:R) out) in fl_place_all ps left' out)
  else Ret (Ok out).

(* simulate (42-69) *)
Definition fl_fixed_sample (x : fixed R) (s : seq nat) : prog (seq nat) :=
  let n := sumn s in
  draw! v := fl_prepare_state (fx_modes x) n in
  draw! ev := Ret (fl_network_simulate (fx_net x) v) in
  fl_place_all (fl_probabilities n ev) (fx_left x) (nseq (fx_modes x) 0%N).
Definition fl_fixed_simulate (s : seq nat) (k : nat) (x : fixed R) : prog (seq (seq nat) * fixed R) :=
  draw! y := sample_loop (fun _ => fl_fixed_sample x s) (fun t => Ok t) k [::] in
  Ret (Ok (y.1, x)).

(* ------------------------------------------------------------------ *)
(* UniformLossSimulationStrategy *)
Variables (f_check : seq R -> R) (f_search : R -> seq R -> nat).

(* 49-51 *)
Definition fl_separable_weights (eta : R) (n : nat) : seq R :=
  [seq f_mul B (f_mul B (f_pow B eta l) (f_int B (Posz 'C(n, l)))) (f_pow B (f_sub B 1 eta) (n - l))
  | l <- iota 0 n.+1].

(* 56-70 *)
Definition fl_uniform_sample (x : uniform R) (s : seq nat) : prog (seq nat) :=
  draw! l := fl_np_choice B f_check f_search N (fl_separable_weights (un_eta x) (sumn s)) in
  draw! y := Ret (fl_new_fixed (un_matrix x) l (un_modes x) None) in
  draw! L := fl_fixed_simulate s 1 y in
  Ret (py_get L.1 0).

(* 32-72 *)
Definition fl_uniform_simulate (s : seq nat) (k : nat) (x : uniform R) : prog (seq (seq nat) * uniform R) :=
  draw! y := sample_loop (fun _ => fl_uniform_sample x s) (fun t => Ok t) k [::] in
  Ret (Ok (y.1, x)).

End Fixed.
