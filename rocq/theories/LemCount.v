(* Final forms of the lemmas behind the property theorems: C82 (float64 in the counting functions). *)
From mathcomp Require Import all_ssreflect all_algebra zify.
From Verif Require Import Base ModelStates ModelQC ModelCount ProofCount.
Set Implicit Arguments.
Unset Strict Implicit.
Unset Printing Implicit Defensive.
Import Order.TTheory GRing.Theory Num.Theory.
Local Open Scope ring_scope.

Lemma C82_states_of_type_lemma :
  forall (R : rcfType) (factorial : nat -> option R) (floordiv : R -> R -> option R) (vals t : seq nat),
  float_factorial factorial -> float_floordiv floordiv ->
  perm_eq vals (undup t) -> (size t <= 22)%N ->
  fl_states_of_given_type factorial floordiv vals t
  = Some (compute_number_of_states_of_given_type vals t)%:R.
Proof.
move=> R factorial floordiv vals t hf hd; exact: fl_states_exact.
Qed.

Lemma C82_states_of_type_refuted_lemma :
  forall (R : rcfType) (factorial : nat -> option R) (floordiv : R -> R -> option R) (vals : seq nat) (m : nat),
  float_factorial factorial -> float_floordiv floordiv ->
  ((23 <= m)%N -> perm_eq vals (undup (iota 0 m)) ->
   fl_states_of_given_type factorial floordiv vals (iota 0 m)
   <> Some (compute_number_of_states_of_given_type vals (iota 0 m))%:R) /\
  (forall t, (171 <= size t)%N -> fl_states_of_given_type factorial floordiv vals t = None).
Proof.
move=> R factorial floordiv vals m hf hd; split; first exact: fl_states_wrong.
move=> t st; refine (@fl_states_none _ _ _ hf _ _ _).
exact: leq_trans fact171 (dvdn_leq (fact_gt0 _) (fact_dvd st)).
Qed.

Lemma C82_dimension_lemma :
  forall (R : rcfType) (binom : nat -> nat -> R) (round : R -> int) (u : R) (n m : nat) (losses : bool),
  rounds round -> (0 < m)%N -> 0 <= u ->
  (forall a b, `|binom a b - 'C(a, b)%:R| <= u * 'C(a, b)%:R) ->
  u * 'C(n + m - 1, n)%:R < 2%:R^-1 ->
  fl_bosonic_space_dimension binom round n m losses = Posz (bosonic_space_dimension n m losses).
Proof.
move=> R binom round u n m losses hr m0 u0; exact: (fl_dimension_exact hr).
Qed.

Lemma C82_dimension_refuted_lemma :
  forall (R : rcfType) (binom : nat -> nat -> R) (round : R -> int),
  rounds round -> (forall a b, float64 (binom a b)) ->
  (forall n m : nat, odd 'C(n + m - 1, n) -> (2 ^ 53 < 'C(n + m - 1, n))%N ->
     fl_bosonic_space_dimension binom round n m false <> Posz (bosonic_space_dimension n m false)) /\
  fl_bosonic_space_dimension binom round 31 33 false <> Posz (bosonic_space_dimension 31 33 false).
Proof.
move=> R binom round hr fb; have h n m := fl_dimension_wrong hr (n := n) (m := m) fb.
by split; [exact: h|exact: (h 31%N 33%N bin63_odd bin63_large)].
Qed.

Lemma C82_prime_factors_lemma :
  forall (fdiv : nat -> nat -> nat) (isq : nat -> nat) (fuel n : nat),
  float_div fdiv -> float_sqrt isq -> (n < 2 ^ 52)%N ->
  fl_prime_factors fdiv isq fuel n = get_prime_factors fuel (Posz n).
Proof.
move=> fdiv isq fuel n hd hs; refine (@fl_prime_factorsE fdiv isq (2 ^ 52)%N _ fuel n hs).
move=> k i i0 ik kT; refine (proj1 (hd k i i0 ik) _); apply: leq_ltn_trans (leq_div k i) _.
by apply: leq_trans kT _; rewrite leq_exp2l.
Qed.

Lemma C82_prime_factors_refuted_lemma :
  forall (fdiv : nat -> nat -> nat) (isq : nat -> nat) (fuel m : nat) (l : seq nat),
  float_div fdiv -> odd m -> (2 ^ 53 < m)%N ->
  fl_prime_factors fdiv isq fuel m.*2 = Ok l -> (\prod_(f <- l) f)%N <> m.*2.
Proof.
move=> fdiv isq fuel m l hd om mT; refine (@fl_prime_factors_wrong fdiv isq (2 ^ 53)%N fuel m l om mT _).
have d2 : (2 %| m.*2)%N by rewrite dvdn2 odd_double.
have := proj2 (hd m.*2 2%N isT d2); rewrite -muln2 mulnK //; exact: id.
Qed.
