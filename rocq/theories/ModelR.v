(* Model of
     simulation_strategies/cliffords_r_simulation_strategy.py (26-230).
   The R function bosonSampler is a parameter: given a matrix, sampleSize and
   perm, it returns its three results, the values column by column. *)
From mathcomp Require Import all_ssreflect all_algebra complex.
From Verif Require Import Base ModelStates ModelPerm ModelDist SpecProb ModelGcc ModelGccB ModelNet ModelBobs ModelLState.
Set Implicit Arguments.
Unset Strict Implicit.
Unset Printing Implicit Defensive.
Import GRing.Theory Num.Theory.
Local Open Scope ring_scope.
Local Open Scope py_scope.

(* d[k] = v: a new key goes to the end *)
Fixpoint dict_set (K : eqType) (V : Type) (d : seq (K * V)) (k : K) (v : V) : seq (K * V) :=
  if d is x :: d' then if x.1 == k then (k, v) :: d' else x :: dict_set d' k v else [:: (k, v)].

(* numpy's array_split *)
Definition np_array_split (T : Type) (l : seq T) (k : nat) : res (seq (seq T)) :=
  if k == 0%N then Err ValueError else
  let: (q, r) := (size l %/ k, size l %% k)%N in
  Ok (reshape (nseq r q.+1 ++ nseq (k - r) q) l).

Section RWrap.
Variable R : rcfType.
Notation CF := (ComplexField.complex_numFieldType R).
Notation mat := (seq (seq CF)).
Notation prog A := (rprog R (res A)).

(* a matrix of R: its values column by column *)
Record rmatrix := RMatrix {
  rm_values : seq CF;
  rm_rows : nat;
  rm_cols : nat
}.
(* the entry in row i, column j, both counted from 0 *)
Definition rm_get (A : rmatrix) (i j : nat) : CF := (rm_values A)`_(j * rm_rows A + i).

(* A.transpose() *)
Definition np_transpose (A : mat) : mat :=
  [seq [seq np_get A i j | i <- iota 0 (size A)] | j <- iota 0 (np_cols A)].

(* _numpy_array_to_r_matrix (47-63) *)
Definition to_r_matrix (A : mat) : rmatrix := RMatrix (flatten (np_transpose A)) (size A) (np_cols A).

(* array(matrix)[:, arange(n)] *)
Definition first_columns (M : mat) (n : nat) : res mat :=
  if M is [::] then Err IndexError else np_columns M (iota 0 n).

Variable boson_sampler : rmatrix -> nat -> bool -> prog (seq int * seq R * seq R).

(* the object is its matrix; set_matrix (38-45) *)
Definition r_set_matrix (N M : mat) : mat := N.

(* simulate (65-107) *)
Definition r_simulate (s : seq nat) (k : nat) (M : mat) : prog (seq (seq nat) * mat) :=
  draw! A := Ret (first_columns M (sumn s)) in
  draw! r := boson_sampler (to_r_matrix A) k false in
  draw! parts := Ret (np_array_split [seq x - 1 | x <- r.1.1] k) in
  draw! L := Ret (rmapM (fun p => mode_assignment_to_mode_occupation p (Posz (size s))) parts) in
  Ret (Ok (L, M)).

(* one sample and its probability (136-150, 196-214) *)
Definition r_single (s : seq nat) (A : mat) : prog (seq nat * seq R) :=
  draw! r := boson_sampler (to_r_matrix A) 1 true in
  draw! parts := Ret (np_array_split [seq x - 1 | x <- r.1.1] 1) in
  draw! p := Ret (py_get parts 0) in
  draw! t := Ret (mode_assignment_to_mode_occupation p (Posz (size s))) in
  Ret (Ok (t, r.2)).

(* find_probabilities (109-159) *)
Fixpoint find_loop (fuel : nat) (s : seq nat) (outs : seq (seq nat)) (A : mat) (d : seq (seq nat * R)) :
    prog (seq (seq nat * R)) :=
  if fuel is fuel'.+1 then
    if size d != size outs then
      draw! x := r_single s A in
      if x.1 \in outs then
        draw! p := Ret (py_get x.2 0) in
        find_loop fuel' s outs A (dict_set d x.1 p)
      else find_loop fuel' s outs A d
    else Ret (Ok d)
  else Ret (Err OutOfFuel).
Definition find_probabilities (fuel : nat) (s : seq nat) (outs : seq (seq nat)) (M : mat) :
    prog (seq (seq nat * R)) :=
  draw! A := Ret (first_columns M (sumn s)) in
  find_loop fuel s outs A [::].

(* isclose(x, 1) *)
Definition close_to_1 (x : R) : bool := `|x - 1| <= (10%:R ^+ 8)^-1 + (10%:R ^+ 5)^-1.

(* find_probabilities_of_n_random_states (161-230); without modes
   binom(-1, -1) is NaN *)
Definition states_cap (s : seq nat) (count : nat) : res nat :=
  if s is [::] then Err ValueError else
  Ok (minn count 'C((sumn s + size s).-1, (size s).-1)).
Fixpoint random_loop (fuel : nat) (s : seq nat) (count : nat) (A : mat) (d : seq (seq nat * R)) (total : R) :
    prog (seq (seq nat * R)) :=
  if fuel is fuel'.+1 then
    if (size d < count)%N || ~~ close_to_1 total then
      draw! x := r_single s A in
      draw! p := Ret (py_get x.2 0) in
      let d := dict_set d x.1 p in
      random_loop fuel' s count A d (py_sum [seq x.2 | x <- d])
    else Ret (Ok d)
  else Ret (Err OutOfFuel).
Definition find_random_states (fuel : nat) (s : seq nat) (count : nat) (M : mat) :
    prog (seq (seq nat * R)) :=
  draw! A := Ret (first_columns M (sumn s)) in
  draw! c := Ret (states_cap s count) in
  random_loop fuel s c A [::] 0.

End RWrap.
