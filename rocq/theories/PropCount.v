(* Property theorems: C82 (float64 in the counting functions).  Only statements; proofs elsewhere. *)
From mathcomp Require Import all_ssreflect all_algebra zify.
From Verif Require Import Base ModelStates ModelQC ModelCount ProofCount LemCount.
Set Implicit Arguments.
Unset Strict Implicit.
Unset Printing Implicit Defensive.
Import Order.TTheory GRing.Theory Num.Theory.
Local Open Scope ring_scope.

(* C82: for state types of at most 22 modes the floating point count is the exact number of states, in any order of the values *)
Theorem C82_states_of_type :
  forall (R : rcfType) (factorial : nat -> option R) (floordiv : R -> R -> option R) (vals t : seq nat),
  float_factorial factorial -> float_floordiv floordiv ->
  perm_eq vals (undup t) -> (size t <= 22)%N ->
  fl_states_of_given_type factorial floordiv vals t
  = Some (compute_number_of_states_of_given_type vals t)%:R.
Proof. exact C82_states_of_type_lemma. Qed.
Print Assumptions C82_states_of_type.

Example C82_operations_exist (R : rcfType) : exists (factorial : nat -> option R) (floordiv : R -> R -> option R),
  float_factorial factorial /\ float_floordiv floordiv.
Proof. exact: count_ops_exist. Qed.

(* C82: 22 is the limit: for every larger number of modes there is a state type (all occupations different) whose number of states is not returned; and from 171 modes on no state type has a finite result *)
Theorem C82_states_of_type_refuted :
  forall (R : rcfType) (factorial : nat -> option R) (floordiv : R -> R -> option R) (vals : seq nat) (m : nat),
  float_factorial factorial -> float_floordiv floordiv ->
  ((23 <= m)%N -> perm_eq vals (undup (iota 0 m)) ->
   fl_states_of_given_type factorial floordiv vals (iota 0 m)
   <> Some (compute_number_of_states_of_given_type vals (iota 0 m))%:R) /\
  (forall t, (171 <= size t)%N -> fl_states_of_given_type factorial floordiv vals t = None).
Proof. exact C82_states_of_type_refuted_lemma. Qed.
Print Assumptions C82_states_of_type_refuted.

(* C82: the rounded binomials give the exact dimension, with and without losses, whenever the largest binomial times the relative error of binom is below 1/2 *)
Theorem C82_dimension :
  forall (R : rcfType) (binom : nat -> nat -> R) (round : R -> int) (u : R) (n m : nat) (losses : bool),
  rounds round -> (0 < m)%N -> 0 <= u ->
  (forall a b, `|binom a b - 'C(a, b)%:R| <= u * 'C(a, b)%:R) ->
  u * 'C(n + m - 1, n)%:R < 2%:R^-1 ->
  fl_bosonic_space_dimension binom round n m losses = Posz (bosonic_space_dimension n m losses).
Proof. exact C82_dimension_lemma. Qed.
Print Assumptions C82_dimension.

Example C82_example (R : rcfType) (round : R -> int) : rounds round -> (* exact binomials *)
  fl_bosonic_space_dimension (fun n k => 'C(n, k)%:R) round 3 4 false = 20.
Proof.
move=> hr; rewrite (@C82_dimension R _ round 0 3 4 false hr) //; last by rewrite mul0r invr_gt0 ltr0n.
by move=> a b; rewrite subrr normr0 mul0r.
Qed.

(* C82: whatever float64 numbers binom returns, the dimension is not returned if it is odd and larger than 2^53, as for 31 particles in 33 modes *)
Theorem C82_dimension_refuted :
  forall (R : rcfType) (binom : nat -> nat -> R) (round : R -> int),
  rounds round -> (forall a b, float64 (binom a b)) ->
  (forall n m : nat, odd 'C(n + m - 1, n) -> (2 ^ 53 < 'C(n + m - 1, n))%N ->
     fl_bosonic_space_dimension binom round n m false <> Posz (bosonic_space_dimension n m false)) /\
  fl_bosonic_space_dimension binom round 31 33 false <> Posz (bosonic_space_dimension 31 33 false).
Proof. exact C82_dimension_refuted_lemma. Qed.
Print Assumptions C82_dimension_refuted.

(* C82: below 2^52 get_prime_factors with floating point division and square root returns exactly the list of the integer algorithm *)
Theorem C82_prime_factors :
  forall (fdiv : nat -> nat -> nat) (isq : nat -> nat) (fuel n : nat),
  float_div fdiv -> float_sqrt isq -> (n < 2 ^ 52)%N ->
  fl_prime_factors fdiv isq fuel n = get_prime_factors fuel (Posz n).
Proof. exact C82_prime_factors_lemma. Qed.
Print Assumptions C82_prime_factors.

(* C82: for twice an odd number above 2^53 the product of the returned list is never the number *)
Theorem C82_prime_factors_refuted :
  forall (fdiv : nat -> nat -> nat) (isq : nat -> nat) (fuel m : nat) (l : seq nat),
  float_div fdiv -> odd m -> (2 ^ 53 < m)%N ->
  fl_prime_factors fdiv isq fuel m.*2 = Ok l -> (\prod_(f <- l) f)%N <> m.*2.
Proof. exact C82_prime_factors_refuted_lemma. Qed.
Print Assumptions C82_prime_factors_refuted.
