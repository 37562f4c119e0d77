(* Version B of the generalized Clifford & Clifford strategies (ModelGccB.v) over
   arbitrary arithmetics for complex128 and float, arbitrary algorithms for the
   sums of floats and for the sorted search of numpy, and random numbers with
   finitely many equally likely values 0, 1/N, ..., (N-1)/N.  Sources as in
   ModelGccB.v. *)
From mathcomp Require Import all_ssreflect all_algebra complex.
From Verif Require Import Base ModelStates ModelPerm ModelDist SpecProb ModelGcc ModelGccB ModelFloat ModelFloatSub
  ModelFloatGcc.
Set Implicit Arguments.
Unset Strict Implicit.
Unset Printing Implicit Defensive.
Import GRing.Theory Num.Theory.
Local Open Scope ring_scope.
Local Open Scope py_scope.

Section Choice.
Variable R : rcfType.
Notation prog A := (rprog R (res A)).
Variables (B : arith R) (f_sum f_check : seq R -> R) (f_search : R -> seq R -> nat) (N : nat).

(* p.cumsum(); cdf /= cdf[-1] *)
Definition fl_partial_sum (p : seq R) (i : nat) : R := foldl (f_add B) 0 (take i p).
Definition fl_choice_cdf (p : seq R) : seq R :=
  [seq f_fdiv B (fl_partial_sum p i.+1) (fl_partial_sum p (size p)) | i <- iota 0 (size p)].

(* numpy.random.choice(range(n), p = p): f_check is the summation of the check,
   f_search the searchsorted(.., side = "right") *)
Definition fl_np_choice (p : seq R) : prog nat :=
  if has (fun x => x < 0) p || (choice_tol R < `|f_sub B (f_check p) 1|) then Ret (Err ValueError)
  else Int N (fun k => Ret (Ok (f_search (k%:R / N%:R) (fl_choice_cdf p)))).

(* val / total for val in pmf; a list of NaNs (0/0) is rejected by choice, and
   so is the list of zeros used here *)
Definition fl_normalised (pmf : seq R) : seq R :=
  let total := f_sum pmf in [seq if total == 0 then 0 else f_fdiv B v total | v <- pmf].

End Choice.

(* binary search of numpy (npy_binsearch, side = "right"): the positions below lo
   hold values <= v, those from hi on values > v *)
Fixpoint npy_binsearch (R : rcfType) (v : R) (l : seq R) (fuel lo hi : nat) : nat :=
  if fuel is fuel'.+1 then
    if (lo < hi)%N then
      let mid := (lo + (hi - lo)./2)%N in
      if l`_mid <= v then npy_binsearch v l fuel' mid.+1 hi else npy_binsearch v l fuel' lo mid
    else lo
  else lo.
Definition npy_search (R : rcfType) (v : R) (l : seq R) : nat := npy_binsearch v l (size l).+1 0 (size l).

Section GccB.
Variable R : rcfType.
Notation CF := (ComplexField.complex_numFieldType R).
Notation prog A := (rprog R (res A)).
Variables (A : arith CF) (B : arith R) (f_abs : CF -> R) (f_sum f_check : seq R -> R).
Variables (f_search : R -> seq R -> nat) (fuel N : nat).

(* _compute_pmf (69-92) *)
Definition fl_compute_pmf (b : gccb R) : res (gccb R) :=
  let U := calc_matrix (b_calc b) in
  let! pc := fl_compute_permanents A fuel Ryser (new_subcalc U (b_current b) (b_r b)) in
  let a := set_input (b_current b) (b_calc b) in
  let! pmf := rmapM (fun m =>
    let! perm := rfoldl (fun perm i =>
      let! x := py_get (b_current b) (Posz i) in
      let! q := py_get pc.1 (Posz i) in
      let! row := py_get U (Posz m) in
      let! z := py_get row (Posz i) in
      Ok (f_add A perm (f_mul A (f_mul A (f_int A (Posz x)) q) z))) 0 (iota 0 (size (b_current b))) in
    Ok (f_pow B (f_abs perm) 2)) (iota 0 (size (b_r b))) in
  Ok (GccB (b_r b) (b_n b) a (b_input b) (b_current b) (b_working b) (fl_normalised B f_sum pmf)).

(* _sample_from_pmf (107-110) *)
Definition fl_sample_from_pmf (b : gccb R) : prog (gccb R) :=
  if size (b_pmf b) != size (b_input b) then Ret (Err ValueError) else
  draw! m := fl_np_choice B f_check f_search N (b_pmf b) in
  Ret (let! r := incr_at (b_r b) (Posz m) in
       Ok (GccB r (b_n b) (b_calc b) (b_input b) (b_current b) (b_working b) (b_pmf b))).

(* _fill_r_sample (94-100 and, with losses, 111-121) *)
Fixpoint fl_b_fill_loop (n target : nat) (b : gccb R) : prog (gccb R) :=
  if n is n'.+1 then
    if (sumn (b_r b) < target)%N then
      draw! b := update_current_input b in
      draw! b := Ret (fl_compute_pmf b) in
      draw! b := fl_sample_from_pmf b in
      fl_b_fill_loop n' target b
    else Ret (Ok b)
  else Ret (Err OutOfFuel).

Definition fl_b_fill (b : gccb R) : prog (gccb R) := fl_b_fill_loop fuel (b_n b) (b_reset b).

(* simulate (41-67) *)
Definition fl_gccb_simulate (s : seq nat) (k : nat) (b : gccb R) : prog (seq (seq nat) * gccb R) :=
  sample_loop fl_b_fill (fun b => Ok (b_r b)) k (b_start s b).

(* ------------------------------------------------------------------ *)
(* uniform losses: _compute_particle_numbers_probabilities (50-65) *)
Definition fl_ub_weights (n : nat) (eta : R) : seq R :=
  [seq f_mul B (f_mul B (f_int B (Posz 'C(n, l))) (f_pow B eta l)) (f_pow B (f_sub B 1 eta) (n - l))
  | l <- iota 0 n.+1].

(* _get_number_of_particles_left (67-85) *)
Definition fl_particles_left (ws : seq R) : prog nat :=
  Int N (fun k => Ret (Ok (fl_cum_search B (k%:R / N%:R) 0 0 ws))).

(* the body of the loop of simulate (103-108) *)
Definition fl_ub_fill (x : ugccb R) : prog (ugccb R) :=
  draw! l := fl_particles_left (ub_weights x) in
  draw! b := fl_b_fill_loop fuel l (b_reset (ub_b x)) in
  Ret (Ok (UGccB b (ub_eta x) (ub_weights x) l)).

(* simulate (87-109) *)
Definition fl_ugccb_simulate (s : seq nat) (k : nat) (x : ugccb R) : prog (seq (seq nat) * ugccb R) :=
  sample_loop fl_ub_fill (fun x => Ok (b_r (ub_b x))) k
    (UGccB (b_start s (ub_b x)) (ub_eta x) (fl_ub_weights (sumn s) (ub_eta x)) (ub_left x)).

End GccB.
