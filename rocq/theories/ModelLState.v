(* Model of
     simulation_strategies/lossy_state_approximated_simulation_strategy.py (36-362).
   x |-> exp(2 pi i x), Python's hash and the number of processors are
   parameters.  The worker processes are run one after the other, each on its
   own copy of the object. *)
From mathcomp Require Import all_ssreflect all_algebra complex.
From Verif Require Import Base ModelStates ModelPerm ModelDist SpecProb ModelGcc ModelGccB ModelNet ModelBobs.
Set Implicit Arguments.
Unset Strict Implicit.
Unset Printing Implicit Defensive.
Import GRing.Theory Num.Theory.
Local Open Scope ring_scope.
Local Open Scope py_scope.

(* s[:h] and s[h:] *)
Definition py_cut (T : Type) (h : int) (s : seq T) : nat := if h < 0 then (size s - `|h|)%N else `|h|%N.
Definition py_upto (T : Type) (h : int) (s : seq T) : seq T := take (py_cut h s) s.
Definition py_from (T : Type) (h : int) (s : seq T) : seq T := drop (py_cut h s) s.

(* _distribute_uniformly (248-271) *)
Definition distribute_uniformly (values bins : nat) : res (seq nat) :=
  if bins == 0%N then Err ZeroDivisionError else
  rfoldl (fun l i => let! x := py_get l (Posz i) in py_set l (Posz i) x.+1)
    (nseq bins (values %/ bins)%N) (iota 0 (values %% bins)).

Section LState.
Variable R : rcfType.
Notation CF := (ComplexField.complex_numFieldType R).
Notation mat := (seq (seq CF)).
Notation prog A := (rprog R (res A)).

(* numpy.random.shuffle: from the last position down to 1, the entry is
   exchanged with one at a position drawn up to it *)
Fixpoint shuffle_loop (i : nat) (l : seq nat) : prog (seq nat) :=
  if i is i'.+1 then
    Int i.+1 (fun j =>
      draw! l := Ret (let! x := py_get l (Posz i) in
                      let! y := py_get l (Posz j) in
                      let! l := py_set l (Posz i) y in
                      py_set l (Posz j) x) in
      shuffle_loop i' l)
  else Ret (Ok l).
Definition np_shuffle (l : seq nat) : prog (seq nat) := shuffle_loop (size l).-1 l.

(* choice(range(n), p = p) *)
Definition np_choice_of (n : nat) (p : seq R) : prog nat :=
  if n != size p then Ret (Err ValueError) else np_choice p.

(* A[:, perm] *)
Definition np_columns (A : mat) (perm : seq nat) : res mat :=
  rmapM (fun row => rmapM (fun j => py_get row (Posz j)) perm) A.

Variables (H : eqType) (hash : seq nat -> H) (cis : R -> CF).

(* the object (42-65) *)
Record lstate := LState {
  ls_approx : seq (seq nat);     (* _approximated_input_state_part_possibilities *)
  ls_approx_w : seq R;
  ls_exact : seq (seq nat);      (* _not_approximated_lossy_mixed_state_parts *)
  ls_exact_w : seq R;
  ls_level : int;                (* _hierarchy_level *)
  ls_eta : R;                    (* _uniform_transmissivity *)
  ls_threads : nat;
  ls_calc : any_calc CF;
  ls_qft : mat
}.

(* __init__; with fewer modes than the level, compute_qft_matrix gets a
   negative size and raises *)
Definition new_lstate (cpu : nat) (a : any_calc CF) (eta : R) (level threads : int) : res lstate :=
  let m := size (calc_input a) in
  let! Q := (if Posz m - level is Posz k then qft_matrix_first cis k m else Err ValueError) in
  Ok (LState [::] [::] [::] [::] level eta (proper_threads cpu threads) a Q).

(* _get_possible_lossy_inputs_weights (183-200) *)
Definition possible_weights (eta : R) (n : nat) : seq R :=
  [seq 'C(n, l)%:R * eta ^+ l * (1 - eta) ^+ (n - l) | l <- iota 0 n.+1].

(* _prepare_not_approximated_lossy_mixed_state_parts (145-162) *)
Definition exact_parts (part : seq nat) : res (seq (seq nat)) :=
  rfoldl (fun acc l =>
      let! new := generate_lossy_n_particle_input_states hash part (Posz l) in
      Ok (acc ++ new)) [::] (iota 0 (sumn part).+1).

(* _prepare_not_approximated_lossy_mixed_state_parts_weights (164-181) *)
Definition exact_weights (eta : R) (parts : seq (seq nat)) : res (seq R) :=
  let! whole := py_get parts (-1) in
  let ws := possible_weights eta (sumn whole) in
  rmapM (fun part =>
      let! w := py_get ws (Posz (sumn part)) in
      Ok (w / 'C(sumn whole, sumn part)%:R)) parts.

(* _prepare_approximated_input_state (202-246) *)
Definition approx_parts (part : seq nat) : res (seq (seq nat)) :=
  rmapM (fun l => py_set (nseq (size part) 0%N) 0 l) (iota 0 (sumn part).+1).
Definition prepare_approx (x : lstate) (part : seq nat) : res (seq (seq nat) * seq R) :=
  if ~~ ((0 <= ls_level x) && (ls_level x < Posz (size (calc_matrix (ls_calc x)))))
  then Ok ([:: [::]], [:: 1])
  else
    let! parts := approx_parts part in
    let! whole := py_get parts (-1) in
    Ok (parts, possible_weights (ls_eta x) (sumn whole)).

(* the preparations of simulate (107-113) *)
Definition lstate_start (s : seq nat) (x : lstate) : res lstate :=
  let! parts := exact_parts (py_upto (ls_level x) s) in
  let! ws := exact_weights (ls_eta x) parts in
  let! ap := prepare_approx x (py_from (ls_level x) s) in
  Ok (LState ap.1 ap.2 parts ws (ls_level x) (ls_eta x) (ls_threads x) (ls_calc x) (ls_qft x)).

(* numpy's hstack of two sequences of integers: the array of an empty sequence
   is one of floats, and makes the whole an array of floats; true: floats *)
Definition np_hstack1 (a b : seq nat) : bool * seq nat := (nilp a || nilp b, a ++ b).

(* _get_input_state_for_sampling (312-332) *)
Definition lstate_input (x : lstate) : prog (bool * seq nat) :=
  draw! i := np_choice_of (size (ls_approx x)) (ls_approx_w x) in
  draw! a := Ret (py_get (ls_approx x) (Posz i)) in
  draw! j := np_choice_of (size (ls_exact x)) (ls_exact_w x) in
  draw! e := Ret (py_get (ls_exact x) (Posz j)) in
  Ret (Ok (np_hstack1 e a)).

(* np_rand and np_shuffle in the code *)
Variables (rand : nat -> prog (seq R)) (shuf : seq nat -> prog (seq nat)).

(* _get_matrix_for_approximate_sampling (348-362),
   _permuted_interferometer_matrix (334-346) *)
Definition lstate_matrix (x : lstate) : prog mat :=
  draw! P := (if Posz (size (ls_qft x)) - ls_level x is Posz k then
                draw! d := rand k in
                Ret (phases_matrix_first cis k (size (ls_qft x)) d)
              else Ret (Err ValueError)) in
  draw! perm := shuf (iota 0 (size (calc_matrix (ls_calc x)))) in
  draw! U := Ret (np_columns (calc_matrix (ls_calc x)) perm) in
  draw! A := Ret (np_matmul U P) in
  Ret (np_matmul A (ls_qft x)).

(* _simulate_in_parallel (287-310), h the helper strategy *)
Variable fuel : nat.
Definition lstate_sample (x : lstate) (h : gccb R) : prog (seq nat * gccb R) :=
  draw! s := lstate_input x in
  draw! A := lstate_matrix x in
  (* simulate calls range() on the entries of the state *)
  draw! y := (if s.1 && ~~ nilp s.2 then Ret (Err TypeError)
              else gccb_simulate fuel s.2 1 (b_set_new_matrix A h)) in
  draw! t := Ret (py_get y.1 0) in
  Ret (Ok (t, y.2)).
Definition lstate_parallel (x : lstate) (k : nat) : prog (seq (seq nat)) :=
  draw! y := sample_loop (fun st => lstate_sample x st.2) (fun st => Ok st.1) k
               ([::], new_gccb (ls_calc x)) in
  Ret (Ok y.1).

(* simulate (89-130) *)
Definition lstate_simulate (s : seq nat) (c : int) (x : lstate) : prog (seq (seq nat) * lstate) :=
  if c < 1 then Ret (Ok ([::], x)) else
  draw! x := Ret (lstate_start s x) in
  draw! loads := Ret (distribute_uniformly `|c|%N (ls_threads x)) in
  draw! L := thread_loop (lstate_parallel x) loads in
  Ret (Ok (L, x)).

End LState.
