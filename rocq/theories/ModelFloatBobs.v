(* The strategy for networks with losses that differ from mode to mode
   (ModelBobs.v) over arbitrary arithmetics for complex128 and float, with random
   numbers for the choices that have finitely many equally likely values 0, 1/N,
   ..., (N-1)/N.
     simulation_strategies/nonuniform_losses_approximation_strategy.py (31-347) *)
From mathcomp Require Import all_ssreflect all_algebra complex.
From Verif Require Import Base ModelStates ModelPerm ModelDist SpecProb ModelGcc ModelGccB ModelNet ModelBobs
  ModelFloat ModelFloatGccB ModelFloatNet ModelFloatLState.
Set Implicit Arguments.
Unset Strict Implicit.
Unset Printing Implicit Defensive.
Import GRing.Theory Num.Theory.
Local Open Scope ring_scope.
Local Open Scope py_scope.

Section Bobs.
Variable R : rcfType.
Notation CF := (ComplexField.complex_numFieldType R).
Notation mat := (seq (seq CF)).
Notation prog A := (rprog R (res A)).
Variables (A : arith CF) (B : arith R) (f_sqrt : R -> R) (f_dot : seq CF -> seq CF -> CF).
Variables (f_root : nat -> nat -> CF) (f_cis : R -> CF).
Variables (f_abs : CF -> R) (f_sum f_check : seq R -> R) (f_search : R -> seq R -> nat) (fuel N : nat).
Variable svd : mat -> res (mat * seq R * mat).

(* choice (32-62) *)
Fixpoint fl_choice_loop (x acc : R) (values : seq nat) (weights : seq R) : option nat :=
  match values, weights with
  | v :: values', w :: weights' =>
      if x < f_add B acc w then Some v else fl_choice_loop x (f_add B acc w) values' weights'
  | _, _ => None
  end.
Definition fl_own_choice (values : seq nat) (weights : seq R) : prog (option nat) :=
  if size values != size weights then
    if values is [::] then Ret (Err ValueError)
    else Int (size values) (fun i => Ret (rmap Some (py_get values (Posz i))))
  else Int N (fun k => Ret (Ok (fl_choice_loop (k%:R / N%:R) 0 values weights))).

(* _extract_losses_from_the_interferometer (120-144) *)
Definition fl_extract_losses (M : mat) : res (R * mat) :=
  let! usv := svd M in
  let: (U, s, V) := usv in
  let ts := [seq f_pow B x 2 | x <- s] in
  let losses := [seq f_sub B 1 t | t <- ts] in
  let! l := py_min losses in
  let ts := [seq f_fdiv B t (f_sub B 1 l) | t <- ts] in
  let s := [seq f_sqrt t | t <- ts] in
  let! X := fl_matmul f_dot U (np_diag [seq x%:C%C : CF | x <- s]) in
  let! Y := fl_matmul f_dot X V in
  Ok (l, Y).

(* __init__ (72-94) *)
Definition fl_new_bobs (cpu : nat) (a : any_calc CF) (modes threads : int) : res (bobs R) :=
  let! lm := fl_extract_losses (calc_matrix a) in
  Ok (Bobs (proper_modes (size (calc_matrix a)) modes) lm.1 lm.2 [::]
        (proper_threads cpu threads) a [::] 0).

(* _compute_binomial_weights (146-190) *)
Definition fl_own_weights (losses : R) (max : nat) : seq (nat * seq R) :=
  let eta := f_sub B 1 losses in
  [seq (n, [seq f_mul B (f_mul B (f_pow B eta l) (f_int B (Posz 'C(n, l)))) (f_pow B (f_sub B 1 eta) (n - l))
           | l <- iota 0 n.+1]) | n <- iota 1 max].

(* _compute_lossy_input (298-329) *)
Fixpoint fl_lossy_modes (ws : seq (nat * seq R)) (s : seq nat) : prog (seq (option nat)) :=
  if s is n :: s' then
    draw! x := (if n == 0%N then Ret (Ok (Some 0%N)) else
                draw! w := Ret (dget_res ws n) in
                fl_own_choice (iota 0 n.+1) w) in
    draw! l := fl_lossy_modes ws s' in
    Ret (Ok (x :: l))
  else Ret (Ok [::]).
Definition fl_lossy_input (x : bobs R) (s : seq nat) : prog (seq (option nat)) :=
  if close_to_0 (bo_losses x) then Ret (Ok (map Some s)) else fl_lossy_modes (bo_weights x) s.

Variable rand : nat -> prog (seq R).

(* _get_matrix_for_approximate_sampling (331-347) *)
Definition fl_approximate_matrix (x : bobs R) : prog mat :=
  draw! Q := Ret (fl_qft_matrix_first A B f_sqrt f_root (bo_modes x) (size (bo_matrix x))) in
  draw! d := rand (bo_modes x) in
  draw! P := Ret (fl_phases_matrix_first f_cis (bo_modes x) (size (bo_matrix x)) d) in
  draw! X := Ret (fl_matmul f_dot (bo_matrix x) P) in
  Ret (fl_matmul f_dot X Q).

(* the loop body of _simulate_in_parallel (280-294) *)
Definition fl_bobs_sample (x : bobs R) (h : gccb R) : prog (seq nat * gccb R) :=
  draw! s := symmetrized x in
  draw! l := fl_lossy_input x s in
  draw! M := fl_approximate_matrix x in
  draw! h := Ret (fl_lossy_net_set_new_matrix B f_sqrt f_dot svd M h) in
  draw! s := Ret (rmapM (fun o => if o is Some n then Ok n else Err TypeError) l) in
  draw! y := fl_lossy_net_simulate B A f_abs f_sum f_check f_search fuel N s 1 h in
  draw! t := Ret (py_get y.1 0) in
  Ret (Ok (t, y.2)).

(* _simulate_in_parallel (263-296) *)
Definition fl_simulate_in_parallel (x : bobs R) (k : nat) : prog (seq (seq nat)) :=
  draw! h := Ret (fl_new_lossy_net B f_sqrt f_dot svd (bo_calc x)) in
  draw! y := sample_loop (fun st => fl_bobs_sample x st.2) (fun st => Ok st.1) k ([::], h.1) in
  Ret (Ok y.1).

(* the state prepared by simulate (228-241) *)
Definition fl_bobs_start (s : seq nat) (x : bobs R) : res (bobs R) :=
  let! st := rfoldl (fun st i =>
      let! n := py_get s (Posz i) in
      let! s' := py_set st.2 (Posz i) 0%N in
      Ok ((st.1 + n)%N, s')) (bo_particles x, s) (iota 0 (bo_modes x)) in
  let! mx := py_max s in
  Ok (Bobs (bo_modes x) (bo_losses x) (bo_matrix x)
        (fl_own_weights (bo_losses x) (maxn mx st.1)) (bo_threads x) (bo_calc x) st.2 st.1).

(* simulate (210-261) *)
Definition fl_bobs_simulate (s : seq nat) (k : int) (x : bobs R) : prog (seq (seq nat) * bobs R) :=
  if k < 1 then Ret (Ok ([::], x)) else
  draw! x := Ret (fl_bobs_start s x) in
  draw! L := thread_loop (fl_simulate_in_parallel x) (samples_for_threads `|k|%N (bo_threads x)) in
  Ret (Ok (L, x)).

End Bobs.
