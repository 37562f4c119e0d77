(* Property theorems: C53 (the wrapper of the R implementation).  Only statements; proofs elsewhere. *)
From mathcomp Require Import all_ssreflect all_algebra complex ring zify.
From Verif Require Import Base SpecStates Combi SpecPerm SpecBS ModelStates ModelPerm ModelDist SpecProb ModelGcc ModelGccB ModelNet SpecGcc ModelBobs ModelLState ModelR SpecR ProbMath BsNorm Witness LemR.
Set Implicit Arguments.
Unset Strict Implicit.
Unset Printing Implicit Defensive.
Import Order.TTheory GRing.Theory Num.Theory.
Local Open Scope ring_scope.
Local Open Scope py_scope.

(* C53: the R matrix has the shape and the entries of the array; R indexes the values column by column *)
Theorem C53_matrix :
  forall (R : rcfType) (r c : nat) (A : seq (seq (ComplexField.complex_numFieldType R))),
  (0 < r)%N -> is_rect r c A ->
  [/\ rm_rows (to_r_matrix A) = r, rm_cols (to_r_matrix A) = c,
      size (rm_values (to_r_matrix A)) = (r * c)%N
    & forall i j : nat, (i < r)%N -> (j < c)%N -> rm_get (to_r_matrix A) i j = ent A i j].
Proof. exact C53_matrix_lemma. Qed.
Print Assumptions C53_matrix.

(* C53: the matrix handed to R consists of the first n columns; with more particles than columns there is an IndexError *)
Theorem C53_first_columns :
  forall (R : rcfType) (r c n : nat) (M : seq (seq (ComplexField.complex_numFieldType R))),
  (0 < r)%N -> is_rect r c M ->
  first_columns M n = if (n <= c)%N then Ok [seq take n row | row <- M] else Err IndexError.
Proof. exact C53_first_columns_lemma. Qed.
Print Assumptions C53_first_columns.

(* C53: more particles than modes, any sampler: the methods raise an IndexError before calling R *)
Theorem C53_too_many_particles :
  forall (R : rcfType) (boson_sampler : rmatrix R -> nat -> bool -> rprog R (res (seq int * seq R * seq R))) (m k fuel : nat) (outs : seq (seq nat)) (M : seq (seq (ComplexField.complex_numFieldType R))) (s : seq nat),
  (0 < m)%N -> is_rect m m M -> (m < sumn s)%N ->
  [/\ r_simulate boson_sampler s k M = Ret (Err IndexError),
      find_probabilities boson_sampler fuel s outs M = Ret (Err IndexError)
    & find_random_states boson_sampler fuel s k M = Ret (Err IndexError)].
Proof. exact C53_too_many_particles_lemma. Qed.
Print Assumptions C53_too_many_particles.

(* C53: the conversion of any k * n integers returned by R.  The j-th number of a batch is a mode counted from 1; numbers between 1 - m and 0 count from the end, all others raise an IndexError *)
Theorem C53_conversion :
  forall (k m n : nat) (V : seq int),
  (0 < m)%N -> (0 < k)%N -> size V = (k * n)%N ->
  (let! parts := np_array_split [seq x - 1 | x <- V] k in
   rmapM (fun p => mode_assignment_to_mode_occupation p (Posz m)) parts) =
  if all (fun x : int => 1 - Posz m <= x <= Posz m) V then
    Ok [seq [seq count (fun x : int => (x == Posz i.+1) || (x == Posz i.+1 - Posz m)) p | i <- iota 0 m] | p <- reshape (nseq k n) V]
  else Err IndexError.
Proof. exact C53_conversion_lemma. Qed.
Print Assumptions C53_conversion.

(* C53: modes from 1 to m become the occupations of the modes from 0 to m - 1 *)
Theorem C53_conversion_of_modes :
  forall (k m n : nat) (V : seq int),
  (0 < m)%N -> (0 < k)%N -> size V = (k * n)%N -> all (fun x : int => 1 <= x <= Posz m) V ->
  (let! parts := np_array_split [seq x - 1 | x <- V] k in
   rmapM (fun p => mode_assignment_to_mode_occupation p (Posz m)) parts) =
  Ok (r_samples m n k V).
Proof. exact C53_conversion_of_modes_lemma. Qed.
Print Assumptions C53_conversion_of_modes.

Example C53_conversion_example :
  (* two samples of three particles in four modes *)
  r_samples 4 3 2 [:: Posz 1; Posz 4; Posz 4; Posz 2; Posz 3; Posz 2] = [:: [:: 1; 0; 0; 2]; [:: 0; 2; 1; 0]]%N.
Proof. by []. Qed.

(* C53: any sampler and any matrix; only the number of particles of the input and the number of its modes matter *)
Theorem C53_positions_ignored :
  forall (R : rcfType) (boson_sampler : rmatrix R -> nat -> bool -> rprog R (res (seq int * seq R * seq R))) (s s' : seq nat) (k : nat) (M : seq (seq (ComplexField.complex_numFieldType R))),
  size s = size s' -> sumn s = sumn s' -> r_simulate boson_sampler s k M = r_simulate boson_sampler s' k M.
Proof. exact C53_positions_ignored_lemma. Qed.
Print Assumptions C53_positions_ignored.

(* C53: without samples to take nothing is ever returned, whatever R does *)
Theorem C53_no_samples :
  forall (R : rcfType) (boson_sampler : rmatrix R -> nat -> bool -> rprog R (res (seq int * seq R * seq R))) (s : seq nat) (M : seq (seq (ComplexField.complex_numFieldType R))),
  always (fun y => exists e, y = Err e) (r_simulate boson_sampler s 0 M).
Proof. exact C53_no_samples_lemma. Qed.
Print Assumptions C53_no_samples.

(* C53: the assumption on the R function can be met *)
Theorem C53_sampler_exists :
  forall (R : rcfType), exists boson_sampler : rmatrix R -> nat -> bool -> rprog R (res (seq int * seq R * seq R)), r_sampler_ok boson_sampler.
Proof. exact C53_sampler_exists_lemma. Qed.
Print Assumptions C53_sampler_exists.

(* C53: with R sampling correctly, the samples are independent and distributed for one particle in each of the first n modes *)
Theorem C53_law :
  forall (R : rcfType) (boson_sampler : rmatrix R -> nat -> bool -> rprog R (res (seq int * seq R * seq R))) (m n : nat) (M : seq (seq (ComplexField.complex_numFieldType R))) (s : seq nat) (k : nat),
  r_sampler_ok boson_sampler -> (0 < n)%N -> (n <= m)%N -> unitary_on m M (first_modes m n) -> size s = m -> sumn s = n -> (0 < k)%N ->
  iid_samples (r_simulate boson_sampler s k M) k (is_state m n) (bs_prob M (first_modes m n)).
Proof. exact C53_law_lemma. Qed.
Print Assumptions C53_law.

Example C53_example (R : rcfType) (boson_sampler : rmatrix R -> nat -> bool -> rprog R (res (seq int * seq R * seq R))) : r_sampler_ok boson_sampler ->
  (* one particle per mode of a beam splitter, one sample *)
  has_exp (on_ok (fun x => (x.1 == [:: [:: 1; 1]]%N)%:R)) (r_simulate boson_sampler [:: 1; 1]%N 1 (splitter R)) (49%:R / 625%:R).
Proof.
move=> ok; have u : unitary_on 2 (splitter R) (first_modes 2 2) by apply: unitaryW => //; exact: splitter_unitary.
have := C53_law ok (isT : 0 < 2)%N (leqnn 2) u (erefl : size [:: 1; 1]%N = 2%N) (erefl : sumn [:: 1; 1]%N = 2%N) (isT : 0 < 1)%N.
by move=> /(_ [:: [:: 1; 1]%N]); rewrite /= big_seq1 splitter_coincidence.
Qed.

(* C53: so the law is that of the input if its particles are in the first modes, one each *)
Theorem C53_exact_for_first_modes :
  forall (R : rcfType) (boson_sampler : rmatrix R -> nat -> bool -> rprog R (res (seq int * seq R * seq R))) (m n : nat) (M : seq (seq (ComplexField.complex_numFieldType R))) (k : nat),
  r_sampler_ok boson_sampler -> (0 < n)%N -> (n <= m)%N -> unitary m M -> (0 < k)%N ->
  iid_samples (r_simulate boson_sampler (first_modes m n) k M) k (is_state m n) (bs_prob M (first_modes m n)).
Proof. exact C53_exact_for_first_modes_lemma. Qed.
Print Assumptions C53_exact_for_first_modes.

(* C53: every draw of a correct R sampler; the matrix stays as it is *)
Theorem C53_never_fails :
  forall (R : rcfType) (boson_sampler : rmatrix R -> nat -> bool -> rprog R (res (seq int * seq R * seq R))) (m n : nat) (M : seq (seq (ComplexField.complex_numFieldType R))) (s : seq nat) (k : nat),
  r_sampler_ok boson_sampler -> (0 < n)%N -> (n <= m)%N -> unitary_on m M (first_modes m n) -> size s = m -> sumn s = n -> (0 < k)%N ->
  always (fun y => exists L, [/\ y = Ok (L, M), size L = k & forall t, t \in L -> is_state m n t])
    (r_simulate boson_sampler s k M).
Proof. exact C53_never_fails_lemma. Qed.
Print Assumptions C53_never_fails.

(* C53: one particle in the second of two modes and the identity network: every sample has it in the first mode, where the exact probability is 0 *)
Theorem C53_positions_refuted :
  forall (R : rcfType) (boson_sampler : rmatrix R -> nat -> bool -> rprog R (res (seq int * seq R * seq R))), r_sampler_ok boson_sampler ->
  has_exp (on_ok (fun x => (x.1 == [:: [:: 1; 0]]%N)%:R)) (r_simulate boson_sampler [:: 0; 1]%N 1 [:: [:: 1; 0]; [:: 0; 1]]) 1 /\
  bs_prob ([:: [:: 1; 0]; [:: 0; 1]] : seq (seq (ComplexField.complex_numFieldType R))) [:: 0; 1]%N [:: 1; 0]%N = 0.
Proof. exact C53_positions_refuted_lemma. Qed.
Print Assumptions C53_positions_refuted.

(* C53: find_probabilities, every draw.  A returned dictionary has exactly the requested outcomes as keys, with their probabilities for the first n modes *)
Theorem C53_find_probabilities :
  forall (R : rcfType) (boson_sampler : rmatrix R -> nat -> bool -> rprog R (res (seq int * seq R * seq R))) (m n : nat) (M : seq (seq (ComplexField.complex_numFieldType R))) (s : seq nat) (outs : seq (seq nat)) (fuel : nat),
  r_sampler_ok boson_sampler -> (0 < n)%N -> (n <= m)%N -> unitary_on m M (first_modes m n) -> size s = m -> sumn s = n ->
  always (fun y => (exists2 d, y = Ok d & perm_eq [seq x.1 | x <- d] outs /\ all (fun x => x.2 == bs_prob M (first_modes m n) x.1) d)
      \/ y = Err OutOfFuel)
    (find_probabilities boson_sampler fuel s outs M).
Proof. exact C53_find_probabilities_lemma. Qed.
Print Assumptions C53_find_probabilities.

(* C53: whatever the R function is, the value returned with an outcome is the first of the probabilities of some sample of that outcome *)
Theorem C53_find_probabilities_any_sampler :
  forall (R : rcfType) (boson_sampler : rmatrix R -> nat -> bool -> rprog R (res (seq int * seq R * seq R))) (A M : seq (seq (ComplexField.complex_numFieldType R))) (s : seq nat) (outs : seq (seq nat)) (fuel : nat) (Q : seq nat -> R -> Prop),
  first_columns M (sumn s) = Ok A ->
  always (if_ok (fun r => forall t x q, mode_assignment_to_mode_occupation [seq x - 1 | x <- r.1.1] (Posz (size s)) = Ok t -> r.2 = x :: q -> Q t x))
    (boson_sampler (to_r_matrix A) 1%N true) ->
  always (if_ok (fun d => forall x, x \in d -> x.1 \in outs /\ Q x.1 x.2)) (find_probabilities boson_sampler fuel s outs M).
Proof. exact C53_find_probabilities_any_sampler_lemma. Qed.
Print Assumptions C53_find_probabilities_any_sampler.

(* C53: the same for find_probabilities_of_n_random_states *)
Theorem C53_random_states_any_sampler :
  forall (R : rcfType) (boson_sampler : rmatrix R -> nat -> bool -> rprog R (res (seq int * seq R * seq R))) (A M : seq (seq (ComplexField.complex_numFieldType R))) (s : seq nat) (count fuel : nat) (Q : seq nat -> R -> Prop),
  first_columns M (sumn s) = Ok A ->
  always (if_ok (fun r => forall t x q, mode_assignment_to_mode_occupation [seq x - 1 | x <- r.1.1] (Posz (size s)) = Ok t -> r.2 = x :: q -> Q t x))
    (boson_sampler (to_r_matrix A) 1%N true) ->
  always (if_ok (fun d => forall x, x \in d -> Q x.1 x.2)) (find_random_states boson_sampler fuel s count M).
Proof. exact C53_random_states_any_sampler_lemma. Qed.
Print Assumptions C53_random_states_any_sampler.

(* C53: distinct outcomes that are states of n particles.  The probability of having returned after fuel samples is at least 1 minus the sum of the (1 - P t)^fuel, so it tends to 1 if no requested outcome has probability 0 *)
Theorem C53_find_probabilities_terminates :
  forall (R : rcfType) (boson_sampler : rmatrix R -> nat -> bool -> rprog R (res (seq int * seq R * seq R))) (m n : nat) (M : seq (seq (ComplexField.complex_numFieldType R))) (s : seq nat) (outs : seq (seq nat)) (fuel : nat),
  r_sampler_ok boson_sampler -> (0 < n)%N -> (n <= m)%N -> unitary_on m M (first_modes m n) -> size s = m -> sumn s = n -> uniq outs -> all (is_state m n) outs ->
  exists2 v, has_exp (on_ok (fun=> 1)) (find_probabilities boson_sampler fuel.+1 s outs M) v
    & 1 - \sum_(t <- outs) (1 - bs_prob M (first_modes m n) t) ^+ fuel <= v <= 1.
Proof. exact C53_find_probabilities_terminates_lemma. Qed.
Print Assumptions C53_find_probabilities_terminates.

(* C53: with a repeated outcome, or one that is no state of n particles in m modes, the loop never ends *)
Theorem C53_find_probabilities_never_returns :
  forall (R : rcfType) (boson_sampler : rmatrix R -> nat -> bool -> rprog R (res (seq int * seq R * seq R))) (m n : nat) (M : seq (seq (ComplexField.complex_numFieldType R))) (s : seq nat) (outs : seq (seq nat)) (fuel : nat),
  r_sampler_ok boson_sampler -> (0 < n)%N -> (n <= m)%N -> unitary_on m M (first_modes m n) -> size s = m -> sumn s = n -> ~~ (uniq outs && all (is_state m n) outs) ->
  always (fun y => y = Err OutOfFuel) (find_probabilities boson_sampler fuel s outs M).
Proof. exact C53_find_probabilities_never_returns_lemma. Qed.
Print Assumptions C53_find_probabilities_never_returns.

(* C53: with a requested outcome of probability 0 the loop ends with probability 0 *)
Theorem C53_find_probabilities_zero :
  forall (R : rcfType) (boson_sampler : rmatrix R -> nat -> bool -> rprog R (res (seq int * seq R * seq R))) (m n : nat) (M : seq (seq (ComplexField.complex_numFieldType R))) (s : seq nat) (outs : seq (seq nat)) (fuel : nat) (t : seq nat),
  r_sampler_ok boson_sampler -> (0 < n)%N -> (n <= m)%N -> unitary_on m M (first_modes m n) -> size s = m -> sumn s = n -> t \in outs -> bs_prob M (first_modes m n) t = 0 ->
  has_exp (on_ok (fun=> 1)) (find_probabilities boson_sampler fuel s outs M) 0.
Proof. exact C53_find_probabilities_zero_lemma. Qed.
Print Assumptions C53_find_probabilities_zero.

(* C53: find_probabilities_of_n_random_states, every draw.  A returned dictionary has distinct states as keys and their probabilities as values, at least as many as requested (or all), and the probabilities add up to about 1 *)
Theorem C53_random_states :
  forall (R : rcfType) (boson_sampler : rmatrix R -> nat -> bool -> rprog R (res (seq int * seq R * seq R))) (m n : nat) (M : seq (seq (ComplexField.complex_numFieldType R))) (s : seq nat) (count fuel : nat),
  r_sampler_ok boson_sampler -> (0 < n)%N -> (n <= m)%N -> unitary_on m M (first_modes m n) -> size s = m -> sumn s = n ->
  always (fun y => (exists2 d, y = Ok d &
      [/\ uniq [seq x.1 | x <- d], forall t, t \in [seq x.1 | x <- d] -> is_state m n t,
          all (fun x => x.2 == bs_prob M (first_modes m n) x.1) d,
          (minn count (size (comps m n)) <= size d)%N & close_to_1 (\sum_(x <- d) x.2)]) \/ y = Err OutOfFuel)
    (find_random_states boson_sampler fuel s count M).
Proof. exact C53_random_states_lemma. Qed.
Print Assumptions C53_random_states.

(* C53: if enough states have positive probability, the probability of having returned tends to 1 *)
Theorem C53_random_states_terminates :
  forall (R : rcfType) (boson_sampler : rmatrix R -> nat -> bool -> rprog R (res (seq int * seq R * seq R))) (m n : nat) (M : seq (seq (ComplexField.complex_numFieldType R))) (s : seq nat) (count fuel : nat),
  r_sampler_ok boson_sampler -> (0 < n)%N -> (n <= m)%N -> unitary_on m M (first_modes m n) -> size s = m -> sumn s = n ->
  let S := [seq t <- comps m n | bs_prob M (first_modes m n) t != 0] in
  (minn count (size (comps m n)) <= size S)%N ->
  exists2 v, has_exp (on_ok (fun=> 1)) (find_random_states boson_sampler fuel.+1 s count M) v
    & 1 - \sum_(t <- S) (1 - bs_prob M (first_modes m n) t) ^+ fuel <= v <= 1.
Proof. exact C53_random_states_terminates_lemma. Qed.
Print Assumptions C53_random_states_terminates.

(* C53: if fewer states than requested (and than there are) have positive probability, it returns with probability 0 *)
Theorem C53_random_states_never_returns :
  forall (R : rcfType) (boson_sampler : rmatrix R -> nat -> bool -> rprog R (res (seq int * seq R * seq R))) (m n : nat) (M : seq (seq (ComplexField.complex_numFieldType R))) (s : seq nat) (count fuel : nat),
  r_sampler_ok boson_sampler -> (0 < n)%N -> (n <= m)%N -> unitary_on m M (first_modes m n) -> size s = m -> sumn s = n ->
  (size [seq t <- comps m n | (bs_prob M (first_modes m n) t != 0)%R] < minn count (size (comps m n)))%N ->
  has_exp (on_ok (fun=> 1)) (find_random_states boson_sampler fuel s count M) 0.
Proof. exact C53_random_states_never_returns_lemma. Qed.
Print Assumptions C53_random_states_never_returns.

(* C53: the number of states returned is not the number requested.  One particle, a beam splitter, one state requested: whatever is returned has two states, and after three samples it has returned with probability at least 2/3 *)
Theorem C53_random_states_number_refuted :
  forall (R : rcfType) (boson_sampler : rmatrix R -> nat -> bool -> rprog R (res (seq int * seq R * seq R))) (fuel : nat), r_sampler_ok boson_sampler ->
  always (fun y => (exists2 d, y = Ok d & size d = 2%N) \/ y = Err OutOfFuel)
    (find_random_states boson_sampler fuel [:: 1; 0]%N 1 (splitter R)) /\
  exists2 v, has_exp (on_ok (fun=> 1)) (find_random_states boson_sampler 4 [:: 1; 0]%N 1 (splitter R)) v & 2%:R / 3%:R <= v.
Proof. exact C53_random_states_number_refuted_lemma. Qed.
Print Assumptions C53_random_states_number_refuted.
