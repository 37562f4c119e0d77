(* Model of version B of the generalized Clifford & Clifford strategies:
     simulation_strategies/generalized_cliffords_b_simulation_strategy.py                (31-110)
     simulation_strategies/generalized_cliffords_b_uniform_losses_simulation_strategy.py (24-121)
   The attributes inherited from version A that are never used are left out. *)
From mathcomp Require Import all_ssreflect all_algebra complex.
From Verif Require Import Base ModelStates ModelPerm ModelDist SpecProb ModelGcc.
Set Implicit Arguments.
Unset Strict Implicit.
Unset Printing Implicit Defensive.
Import GRing.Theory Num.Theory.
Local Open Scope ring_scope.
Local Open Scope py_scope.

Section GccB.
Variable R : rcfType.
Notation CF := (ComplexField.complex_numFieldType R).
Notation prog A := (rprog R (res A)).

(* numpy.random.choice(range(n), p = p) for a list p of length n: p must be
   non-negative and sum to 1 up to sqrt(eps) = 2^-26; then a draw u selects the
   first position where the cumulative sum, divided by the last, exceeds u.
   A list of NaNs (0/0) is rejected too: 0/0 is 0 here, so the sum is 0. *)
Definition choice_tol : R := (2%:R ^+ 26)^-1.
Definition choice_cdf (p : seq R) : seq R :=
  [seq py_sum (take i.+1 p) / py_sum p | i <- iota 0 (size p)].
Definition np_choice (p : seq R) : prog nat :=
  if has (fun x => x < 0) p || (choice_tol < `|py_sum p - 1|) then Ret (Err ValueError)
  else Unif (fun u => Ret (Ok (find (fun c => u < c) (choice_cdf p)))).

Variable fuel : nat.

(* the strategy object (36-39) *)
Record gccb := GccB {
  b_r : seq nat;
  b_n : nat;
  b_calc : any_calc CF;
  b_input : seq nat;
  b_current : seq nat;     (* _current_input *)
  b_working : seq nat;     (* _working_input_state *)
  b_pmf : seq R
}.

Definition new_gccb (a : any_calc CF) : gccb := GccB [::] 0 a [::] [::] [::] [::].

Definition b_set_new_matrix (M : seq (seq CF)) (b : gccb) : gccb :=
  GccB (b_r b) (b_n b) (set_matrix M (b_calc b)) (b_input b) (b_current b) (b_working b) (b_pmf b).

(* list.pop(i) *)
Definition py_pop (l : seq nat) (i : nat) : res (nat * seq nat) :=
  let! x := py_get l (Posz i) in Ok (x, take i l ++ drop i.+1 l).

(* _update_current_input (102-105) *)
Definition update_current_input (b : gccb) : prog gccb :=
  if b_working b is [::] then Ret (Err ValueError)    (* randint(0, 0) *)
  else Int (size (b_working b)) (fun i => Ret (
    let! xw := py_pop (b_working b) i in
    let! cur := incr_at (b_current b) (Posz xw.1) in
    Ok (GccB (b_r b) (b_n b) (b_calc b) (b_input b) cur xw.2 (b_pmf b)))).

(* _compute_pmf (69-92) *)
Definition compute_pmf (b : gccb) : res gccb :=
  let U := calc_matrix (b_calc b) in
  let! pc := compute_permanents fuel Ryser (new_subcalc U (b_current b) (b_r b)) in
  let a := set_input (b_current b) (b_calc b) in
  let! pmf := rmapM (fun m =>
    let! perm := rfoldl (fun perm i =>
      let! x := py_get (b_current b) (Posz i) in
      let! q := py_get pc.1 (Posz i) in
      let! row := py_get U (Posz m) in
      let! z := py_get row (Posz i) in
      Ok (perm + x%:R * q * z)) 0 (iota 0 (size (b_current b))) in
    Ok (py_abs perm ^+ 2)) (iota 0 (size (b_r b))) in
  Ok (GccB (b_r b) (b_n b) a (b_input b) (b_current b) (b_working b)
        [seq v / py_sum pmf | v <- pmf]).

(* _sample_from_pmf (107-110); choice needs one probability per mode *)
Definition sample_from_pmf (b : gccb) : prog gccb :=
  if size (b_pmf b) != size (b_input b) then Ret (Err ValueError) else
  draw! m := np_choice (b_pmf b) in
  Ret (let! r := incr_at (b_r b) (Posz m) in
       Ok (GccB r (b_n b) (b_calc b) (b_input b) (b_current b) (b_working b) (b_pmf b))).

(* _fill_r_sample (94-100 and, with losses, 111-121): until target particles *)
Fixpoint b_fill_loop (n target : nat) (b : gccb) : prog gccb :=
  if n is n'.+1 then
    if (sumn (b_r b) < target)%N then
      draw! b := update_current_input b in
      draw! b := Ret (compute_pmf b) in
      draw! b := sample_from_pmf b in
      b_fill_loop n' target b
    else Ret (Ok b)
  else Ret (Err OutOfFuel).

(* the body of the loop of simulate (63-65) up to the filled sample *)
Definition b_reset (b : gccb) : gccb :=
  GccB (nseq (size (b_input b)) 0%N) (b_n b) (b_calc b) (b_input b) (nseq (size (b_input b)) 0%N)
    (mode_occupation_to_mode_assignment (map Posz (b_input b))) (b_pmf b).
Definition b_fill (b : gccb) : prog gccb := b_fill_loop fuel (b_n b) (b_reset b).

Definition b_start (s : seq nat) (b : gccb) : gccb :=
  GccB (b_r b) (sumn s) (b_calc b) s (b_current b) (b_working b) (b_pmf b).

(* simulate (41-67) *)
Definition gccb_simulate (s : seq nat) (k : nat) (b : gccb) : prog (seq (seq nat) * gccb) :=
  sample_loop b_fill (fun b => Ok (b_r b)) k (b_start s b).

(* ------------------------------------------------------------------ *)
(* uniform losses: the object (38-49) *)
Record ugccb := UGccB {
  ub_b : gccb;
  ub_eta : R;
  ub_weights : seq R;
  ub_left : nat            (* _number_of_particles_in_sample *)
}.
Definition new_ugccb (a : any_calc CF) (eta : R) : ugccb := UGccB (new_gccb a) eta [::] 0.

(* _compute_particle_numbers_probabilities (50-65) *)
Definition ub_binomial_weights (n : nat) (eta : R) : seq R :=
  [seq 'C(n, l)%:R * eta ^+ l * (1 - eta) ^+ (n - l) | l <- iota 0 n.+1].

(* _get_number_of_particles_left (67-85): threshold = random() *)
Definition particles_left (ws : seq R) : prog nat :=
  Unif (fun u => Ret (Ok (cum_search u 0 0 ws))).

(* the body of the loop of simulate (103-108) *)
Definition ub_fill (x : ugccb) : prog ugccb :=
  draw! l := particles_left (ub_weights x) in
  draw! b := b_fill_loop fuel l (b_reset (ub_b x)) in
  Ret (Ok (UGccB b (ub_eta x) (ub_weights x) l)).

(* simulate (87-109) *)
Definition ugccb_simulate (s : seq nat) (k : nat) (x : ugccb) : prog (seq (seq nat) * ugccb) :=
  sample_loop ub_fill (fun x => Ok (b_r (ub_b x))) k
    (UGccB (b_start s (ub_b x)) (ub_eta x) (ub_binomial_weights (sumn s) (ub_eta x)) (ub_left x)).

End GccB.
