(* Property theorems: C60: collecting the distribution of version A up to an accuracy ends.  Only statements; proofs elsewhere. *)
From mathcomp Require Import all_ssreflect all_algebra complex.
From Verif Require Import Base SpecStates Combi SpecPerm SpecBS BsMath BsNorm SpecProb ProbMath ModelStates ModelPerm ModelDist ModelGcc ModelNet ProofDist1 Witness LemAccur.
Set Implicit Arguments.
Unset Strict Implicit.
Unset Printing Implicit Defensive.
Import Order.TTheory GRing.Theory Num.Theory.
Local Open Scope ring_scope.
Local Open Scope py_scope.

(* C60: for accuracies up to 1 the probability of having returned after that many rounds is at least 1 minus the sum of the (1 - P t)^rounds over the outcomes with particles and positive probability, so it tends to 1 *)
Theorem C60_distribution_terminates :
  forall (R : rcfType) (gray : nat -> seq nat) (m : nat) (U : seq (seq (ComplexField.complex_numFieldType R))) (s : seq nat) (eta accuracy tol : R),
  unitary_on m U s -> size s = m -> (0 < m)%N -> gray_ok gray (sumn s) -> 0 <= eta <= 1 -> accuracy <= 1 -> 0 <= tol ->
  exists (L : seq (seq nat)) (f0 : nat), [/\ uniq L, L =i [pred t | (size t == m) && (sumn t <= sumn s)%N] & forall (fuel : nat) (x : ugcc R),
  (f0 <= fuel)%N -> calc_matrix (g_calc (ug_gcc x)) = U -> ug_eta x = eta ->
  generate_possible_states fuel (Posz (sumn s)) (Posz (size s)) true = Ok L /\
  (ug_missing x = false -> forall rounds,
    exists2 v, has_exp (on_ok (fun=> 1)) (compute_distribution gray fuel accuracy tol rounds.+1 s x) v
      & 1 - \sum_(t <- L | (0 < sumn t)%N && (uniform_loss_prob U s eta t != 0)) (1 - uniform_loss_prob U s eta t) ^+ rounds <= v <= 1)].
Proof. exact C60_distribution_terminates_lemma. Qed.
Print Assumptions C60_distribution_terminates.

(* one photon on a beam splitter, transmissivity 1/2: its two outcomes have probabilities 9/50 and 16/50, so
   the distribution is returned after k + 1 rounds with probability at least 1 - (41/50)^k - (34/50)^k *)
Example C60_distribution_example (R : rcfType) : exists (fuel : nat) (x : ugcc R), forall rounds,
  exists2 v, has_exp (on_ok (fun=> 1)) (compute_distribution reflected_gray fuel 1 0 rounds.+1 [:: 1; 0]%N x) v
    & 1 - ((41%:R / 50%:R) ^+ rounds + (34%:R / 50%:R) ^+ rounds) <= v <= 1.
Proof. exact: C60_example_lemma. Qed.

(* C60: asked for accuracy 1 without tolerance: with at least that probability the exact distribution is returned *)
Theorem C60_exact_distribution :
  forall (R : rcfType) (gray : nat -> seq nat) (m : nat) (U : seq (seq (ComplexField.complex_numFieldType R))) (s : seq nat) (eta : R),
  unitary_on m U s -> size s = m -> (0 < m)%N -> gray_ok gray (sumn s) -> 0 <= eta <= 1 ->
  exists (L : seq (seq nat)) (f0 : nat), [/\ uniq L, L =i [pred t | (size t == m) && (sumn t <= sumn s)%N] & forall (fuel : nat) (x : ugcc R),
  (f0 <= fuel)%N -> calc_matrix (g_calc (ug_gcc x)) = U -> ug_eta x = eta ->
  generate_possible_states fuel (Posz (sumn s)) (Posz (size s)) true = Ok L /\
  (ug_missing x = false -> forall rounds,
    exists2 v, has_exp (on_ok (fun y => (y.1 == [seq uniform_loss_prob U s eta t | t <- L])%:R)) (compute_distribution gray fuel 1 0 rounds.+1 s x) v
      & 1 - \sum_(t <- L | (0 < sumn t)%N && (uniform_loss_prob U s eta t != 0)) (1 - uniform_loss_prob U s eta t) ^+ rounds <= v <= 1)].
Proof. exact C60_exact_distribution_lemma. Qed.
Print Assumptions C60_exact_distribution.

(* C60: the unweighted list: the same with eta^|t| times the probability of t among the outcomes with its number of particles *)
Theorem C60_unweighted_terminates :
  forall (R : rcfType) (gray : nat -> seq nat) (m : nat) (U : seq (seq (ComplexField.complex_numFieldType R))) (s : seq nat) (eta accuracy tol : R),
  unitary_on m U s -> size s = m -> (0 < m)%N -> gray_ok gray (sumn s) -> (0 < sumn s)%N -> 0 <= eta <= 1 -> accuracy <= 1 -> 0 <= tol ->
  exists (L : seq (seq nat)) (f0 : nat), [/\ uniq L, L =i [pred t | (size t == m) && (sumn t <= sumn s)%N] & forall (fuel : nat) (x : ugcc R),
  (f0 <= fuel)%N -> calc_matrix (g_calc (ug_gcc x)) = U -> ug_eta x = eta ->
  generate_possible_states fuel (Posz (sumn s)) (Posz (size s)) true = Ok L /\
  (ug_missing x = false -> forall rounds,
    exists2 v, has_exp (on_ok (fun=> 1)) (compute_unweighted gray fuel accuracy tol rounds.+1 s x) v
      & 1 - \sum_(t <- L | (0 < sumn t)%N && (fixed_loss_prob U s t != 0)) (1 - eta ^+ sumn t * fixed_loss_prob U s t) ^+ rounds <= v <= 1)].
Proof. exact C60_unweighted_terminates_lemma. Qed.
Print Assumptions C60_unweighted_terminates.

(* C60: asked for accuracy 1 without tolerance, whatever is returned are the exact probabilities among the outcomes with the same number of particles, and 0 for the vacuum *)
Theorem C60_unweighted_exact :
  forall (R : rcfType) (gray : nat -> seq nat) (m : nat) (U : seq (seq (ComplexField.complex_numFieldType R))) (s : seq nat) (eta : R),
  unitary_on m U s -> size s = m -> (0 < m)%N -> gray_ok gray (sumn s) -> (0 < sumn s)%N ->
  exists (L : seq (seq nat)) (f0 : nat), [/\ uniq L, L =i [pred t | (size t == m) && (sumn t <= sumn s)%N] & forall (fuel : nat) (x : ugcc R),
  (f0 <= fuel)%N -> calc_matrix (g_calc (ug_gcc x)) = U -> ug_eta x = eta ->
  generate_possible_states fuel (Posz (sumn s)) (Posz (size s)) true = Ok L /\
  (ug_missing x = false -> forall rounds, always (fun y => y = Err OutOfFuel \/
      exists x', y = Ok ([seq if sumn t == 0%N then 0 else fixed_loss_prob U s t | t <- L], x'))
    (compute_unweighted gray fuel 1 0 rounds s x))].
Proof. exact C60_unweighted_exact_lemma. Qed.
Print Assumptions C60_unweighted_exact.

(* C60: an accuracy above 1 (plus the tolerance) is never reached *)
Theorem C60_too_accurate :
  forall (R : rcfType) (gray : nat -> seq nat) (m : nat) (U : seq (seq (ComplexField.complex_numFieldType R))) (s : seq nat) (eta accuracy tol : R),
  unitary_on m U s -> size s = m -> (0 < m)%N -> gray_ok gray (sumn s) -> 0 <= eta <= 1 -> 1 + tol < accuracy ->
  exists (L : seq (seq nat)) (f0 : nat), [/\ uniq L, L =i [pred t | (size t == m) && (sumn t <= sumn s)%N] & forall (fuel : nat) (x : ugcc R),
  (f0 <= fuel)%N -> calc_matrix (g_calc (ug_gcc x)) = U -> ug_eta x = eta ->
  generate_possible_states fuel (Posz (sumn s)) (Posz (size s)) true = Ok L /\
  forall rounds, always (fun y => y = Err OutOfFuel) (compute_distribution gray fuel accuracy tol rounds s x)].
Proof. exact C60_too_accurate_lemma. Qed.
Print Assumptions C60_too_accurate.

(* C60: with transmissivity 0 the unweighted list is never returned: no layer is ever computed *)
Theorem C60_zero_transmissivity :
  forall (R : rcfType) (gray : nat -> seq nat) (m : nat) (U : seq (seq (ComplexField.complex_numFieldType R))) (s : seq nat) (eta accuracy tol : R),
  unitary_on m U s -> size s = m -> (0 < m)%N -> gray_ok gray (sumn s) -> (0 < sumn s)%N -> eta = 0 -> tol < accuracy ->
  exists (L : seq (seq nat)) (f0 : nat), [/\ uniq L, L =i [pred t | (size t == m) && (sumn t <= sumn s)%N] & forall (fuel : nat) (x : ugcc R),
  (f0 <= fuel)%N -> calc_matrix (g_calc (ug_gcc x)) = U -> ug_eta x = eta ->
  generate_possible_states fuel (Posz (sumn s)) (Posz (size s)) true = Ok L /\
  forall rounds, always (fun y => y = Err OutOfFuel) (compute_unweighted gray fuel accuracy tol rounds s x)].
Proof. exact C60_zero_transmissivity_lemma. Qed.
Print Assumptions C60_zero_transmissivity.

(* C60: with missing_values_in_distribution the loop never ends if there is an outcome that cannot be reached from a state of positive probability by adding one particle *)
Theorem C60_missing_values :
  forall (R : rcfType) (gray : nat -> seq nat) (m : nat) (U : seq (seq (ComplexField.complex_numFieldType R))) (s : seq nat) (eta accuracy tol : R) (t : seq nat),
  unitary_on m U s -> size s = m -> (0 < m)%N -> gray_ok gray (sumn s) -> 0 <= eta <= 1 -> tol < accuracy -> size t = m -> (0 < sumn t <= sumn s)%N ->
  (forall j, (j < m)%N -> (0 < nth 0%N t j)%N -> fixed_loss_prob U s (set_nth 0%N t j (nth 0%N t j).-1) = 0) ->
  exists (L : seq (seq nat)) (f0 : nat), [/\ uniq L, L =i [pred t | (size t == m) && (sumn t <= sumn s)%N] & forall (fuel : nat) (x : ugcc R),
  (f0 <= fuel)%N -> calc_matrix (g_calc (ug_gcc x)) = U -> ug_eta x = eta ->
  generate_possible_states fuel (Posz (sumn s)) (Posz (size s)) true = Ok L /\
  (ug_missing x = true -> forall rounds,
    always (fun y => y = Err OutOfFuel) (compute_distribution gray fuel accuracy tol rounds s x))].
Proof. exact C60_missing_values_lemma. Qed.
Print Assumptions C60_missing_values.

(* two photons in the first of two modes, no network, no losses: the outcome with both photons in the second mode is never recorded *)
Example C60_missing_values_example (R : rcfType) : exists f0, forall (fuel rounds : nat) (x : ugcc R), (f0 <= fuel)%N ->
  calc_matrix (g_calc (ug_gcc x)) = np_eye _ 2 -> ug_eta x = 1 -> ug_missing x = true ->
  always (fun y => y = Err OutOfFuel) (compute_distribution reflected_gray fuel 1 0 rounds [:: 2; 0]%N x).
Proof. exact: C60_missing_example_lemma. Qed.
