(* Model of
     simulation_strategies/nonuniform_losses_approximation_strategy.py (32-347).
   numpy's decomposition svd and x |-> exp(2 pi i x) are parameters, and so is
   the number of processors.  The worker processes are run one after the other,
   each on its own copy of the object. *)
From mathcomp Require Import all_ssreflect all_algebra complex.
From Verif Require Import Base ModelStates ModelPerm ModelDist SpecProb ModelGcc ModelGccB ModelNet.
Set Implicit Arguments.
Unset Strict Implicit.
Unset Printing Implicit Defensive.
Import GRing.Theory Num.Theory.
Local Open Scope ring_scope.
Local Open Scope py_scope.

(* max(l), l a list of non-negative integers *)
Definition py_max (l : seq nat) : res nat :=
  if l is x :: l' then Ok (foldl maxn x l') else Err ValueError.

(* _get_proper_threads_number (192-208) *)
Definition proper_threads (cpu : nat) (threads : int) : nat :=
  if (threads < 1) || (Posz cpu < threads) then cpu else `|threads|%N.

(* the threads one after the other; the lists of samples are joined *)
Fixpoint thread_loop (R : realFieldType) (X : Type) (work : nat -> rprog R (res (seq X)))
    (loads : seq nat) : rprog R (res (seq X)) :=
  if loads is k :: loads' then
    draw! a := work k in
    draw! b := thread_loop work loads' in
    Ret (Ok (a ++ b))
  else Ret (Ok [::]).

Section Bobs.
Variable R : rcfType.
Notation CF := (ComplexField.complex_numFieldType R).
Notation mat := (seq (seq CF)).
Notation prog A := (rprog R (res A)).

(* min(l) *)
Definition py_min (l : seq R) : res R :=
  if l is x :: l' then Ok (foldl Num.min x l') else Err ValueError.

(* numpy's isclose(x, 0): |x| <= 1e-8 *)
Definition close_to_0 (x : R) : bool := `|x| <= (10%:R ^+ 8)^-1.

(* choice (32-62); None when the loop ends without a return *)
Fixpoint choice_loop (u acc : R) (values : seq nat) (weights : seq R) : option nat :=
  match values, weights with
  | v :: values', w :: weights' =>
      if u < acc + w then Some v else choice_loop u (acc + w) values' weights'
  | _, _ => None
  end.
Definition own_choice (values : seq nat) (weights : seq R) : prog (option nat) :=
  if size values != size weights then
    if values is [::] then Ret (Err ValueError)   (* randint(0, 0) *)
    else Int (size values) (fun i => Ret (rmap Some (py_get values (Posz i))))
  else Unif (fun u => Ret (Ok (choice_loop u 0 values weights))).

(* numpy.random.rand(n) *)
Fixpoint np_rand (n : nat) : prog (seq R) :=
  if n is n'.+1 then Unif (fun u => draw! l := np_rand n' in Ret (Ok (u :: l)))
  else Ret (Ok [::]).

Variables (svd : mat -> res (mat * seq R * mat)) (cis : R -> CF).

(* the object (72-94) *)
Record bobs := Bobs {
  bo_modes : nat;                          (* _approximated_modes_number *)
  bo_losses : R;                           (* _uniform_losses *)
  bo_matrix : mat;                         (* _initial_matrix *)
  bo_weights : seq (nat * seq R);          (* _binomial_weights *)
  bo_threads : nat;                        (* _threads_number *)
  bo_calc : any_calc CF;                   (* _permanent_calculator *)
  bo_state : seq nat;                      (* _state_without_approximated_modes *)
  bo_particles : nat                       (* _approximated_modes_particles_number *)
}.

(* _get_proper_approximated_modes_number (96-118) *)
Definition proper_modes (total : nat) (k : int) : nat :=
  let k := if Posz total < k then Posz total else k in
  if k < 0 then 0%N else `|k|%N.

(* _extract_losses_from_the_interferometer (120-144); with 1 - losses = 0
   numpy divides by 0 and fills the matrix with NaN *)
Definition extract_losses (M : mat) : res (R * mat) :=
  let! usv := svd M in
  let: (U, s, V) := usv in
  let ts := [seq x ^+ 2 | x <- s] in
  let losses := [seq 1 - t | t <- ts] in
  let! l := py_min losses in
  let ts := [seq t / (1 - l) | t <- ts] in
  let s := [seq Num.sqrt t | t <- ts] in
  let! X := np_matmul U (np_diag [seq x%:C%C : CF | x <- s]) in
  let! Y := np_matmul X V in
  Ok (l, Y).

(* __init__ *)
Definition new_bobs (cpu : nat) (a : any_calc CF) (modes threads : int) : res bobs :=
  let! lm := extract_losses (calc_matrix a) in
  Ok (Bobs (proper_modes (size (calc_matrix a)) modes) lm.1 lm.2 [::]
        (proper_threads cpu threads) a [::] 0).

(* _compute_binomial_weights (146-190) *)
Definition own_binomial_weights (losses : R) (max : nat) : seq (nat * seq R) :=
  let eta := 1 - losses in
  [seq (n, [seq eta ^+ l * 'C(n, l)%:R * (1 - eta) ^+ (n - l) | l <- iota 0 n.+1]) | n <- iota 1 max].

(* _compute_lossy_input (298-329) *)
Fixpoint lossy_modes (ws : seq (nat * seq R)) (s : seq nat) : prog (seq (option nat)) :=
  if s is n :: s' then
    draw! x := (if n == 0%N then Ret (Ok (Some 0%N)) else
                draw! w := Ret (dget_res ws n) in
                own_choice (iota 0 n.+1) w) in
    draw! l := lossy_modes ws s' in
    Ret (Ok (x :: l))
  else Ret (Ok [::]).
Definition lossy_input (x : bobs) (s : seq nat) : prog (seq (option nat)) :=
  if close_to_0 (bo_losses x) then Ret (Ok (map Some s)) else lossy_modes (bo_weights x) s.

(* what the samples draw with rand: np_rand in the code *)
Variable rand : nat -> prog (seq R).

(* _get_matrix_for_approximate_sampling (331-347) *)
Definition approximate_matrix (x : bobs) : prog mat :=
  draw! Q := Ret (qft_matrix_first cis (bo_modes x) (size (bo_matrix x))) in
  draw! d := rand (bo_modes x) in
  draw! P := Ret (phases_matrix_first cis (bo_modes x) (size (bo_matrix x)) d) in
  draw! A := Ret (np_matmul (bo_matrix x) P) in
  Ret (np_matmul A Q).

(* symmetrization (281-287) *)
Definition symmetrized (x : bobs) : prog (seq nat) :=
  if (0 < bo_modes x)%N then
    Int (bo_modes x) (fun i => Ret (py_set (bo_state x) (Posz i) (bo_particles x)))
  else Ret (Ok (bo_state x)).

(* the loop body of _simulate_in_parallel (280-294), h the helper strategy *)
Variable fuel : nat.
Definition bobs_sample (x : bobs) (h : gccb R) : prog (seq nat * gccb R) :=
  draw! s := symmetrized x in
  draw! l := lossy_input x s in
  draw! A := approximate_matrix x in
  draw! h := Ret (lossy_net_set_new_matrix svd A h) in
  (* None is no number of particles *)
  draw! s := Ret (rmapM (fun o => if o is Some n then Ok n else Err TypeError) l) in
  draw! y := lossy_net_simulate fuel s 1 h in
  draw! t := Ret (py_get y.1 0) in
  Ret (Ok (t, y.2)).

(* _simulate_in_parallel (263-296) *)
Definition simulate_in_parallel (x : bobs) (k : nat) : prog (seq (seq nat)) :=
  draw! h := Ret (new_lossy_net svd (bo_calc x)) in
  draw! y := sample_loop (fun st => bobs_sample x st.2) (fun st => Ok st.1) k ([::], h.1) in
  Ret (Ok y.1).

(* the state prepared by simulate (228-241) *)
Definition bobs_start (s : seq nat) (x : bobs) : res bobs :=
  let! st := rfoldl (fun st i =>
      let! n := py_get s (Posz i) in
      let! s' := py_set st.2 (Posz i) 0%N in
      Ok ((st.1 + n)%N, s')) (bo_particles x, s) (iota 0 (bo_modes x)) in
  let! mx := py_max s in
  Ok (Bobs (bo_modes x) (bo_losses x) (bo_matrix x)
        (own_binomial_weights (bo_losses x) (maxn mx st.1)) (bo_threads x) (bo_calc x) st.2 st.1).

(* samples_for_threads (243-250) *)
Definition samples_for_threads (k T : nat) : seq nat := nseq T ((k + T - k %% T) %/ T)%N.

(* simulate (210-261) *)
Definition bobs_simulate (s : seq nat) (k : int) (x : bobs) : prog (seq (seq nat) * bobs) :=
  if k < 1 then Ret (Ok ([::], x)) else
  draw! x := Ret (bobs_start s x) in
  draw! L := thread_loop (simulate_in_parallel x) (samples_for_threads `|k|%N (bo_threads x)) in
  Ret (Ok (L, x)).

End Bobs.
