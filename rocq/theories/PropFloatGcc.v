(* Property theorems: C75 (rounding errors of the samplers).  Only statements; proofs elsewhere. *)
From mathcomp Require Import all_ssreflect all_algebra complex ring zify.
From Verif Require Import Base SpecStates Combi SpecPerm SpecBS ModelStates ModelPerm ModelDist ProofDist1 SpecProb ModelGcc ModelFloat ModelFloatGcc SpecFloat SpecFloatGcc LemFloatGcc.
Set Implicit Arguments.
Unset Strict Implicit.
Unset Printing Implicit Defensive.
Import Order.TTheory GRing.Theory Num.Theory.
Local Open Scope ring_scope.
Local Open Scope py_scope.

(* C75: with exact operations the layers and the selection are those of the model with exact numbers *)
Theorem C75_exact_arithmetic :
  forall (R : rcfType) (gray : nat -> seq nat) (fuel : nat) (g : gcc R) (v acc : R) (i : nat) (l : seq R),
  let A := exact_arith (ComplexField.complex_numFieldType R) in let B := exact_arith R in let f_abs := @py_abs R in let f_sum := @py_sum R in
  [/\ fl_new_layer A B f_abs f_sum gray fuel g = new_layer gray fuel g,
      fl_ma_new_layer A B f_abs f_sum gray fuel g = ma_new_layer gray fuel g
    & fl_cum_search B v acc i l = cum_search v acc i l].
Proof. exact C75_exact_arithmetic_lemma. Qed.
Print Assumptions C75_exact_arithmetic.

(* C75: k samples of the strategy with occupations.  The stored matrix V is up to eps the unitary matrix U, random() has N equally likely values.  Expectations of any test f (0 if an error is raised) differ from those of k exact independent samples by at most k gcc_error *)
Theorem C75_sampler :
  forall (R : rcfType) (u eps : R) (A : arith (ComplexField.complex_numFieldType R)) (B : arith R) (f_abs : (ComplexField.complex_numFieldType R) -> R) (f_sum : seq R -> R) (N : nat)
    (gray : nat -> seq nat) (fuel m : nat) (U V : seq (seq (ComplexField.complex_numFieldType R))) (s : seq nat) (k : nat) (g : gcc R) (f : seq (seq nat) -> R),
  0 <= u -> accurate (u%:C)%C A -> accurate u B -> (forall z, `|f_abs z - py_abs z| <= u * py_abs z) -> accurate_sum u f_sum ->
  (0 < N)%N -> unitary m U -> is_square m V -> 0 <= eps ->
  (forall j i, (j < m)%N -> (i < m)%N -> `|ent V j i - ent U j i| <= (eps%:C)%C) ->
  size s = m -> gray_ok gray (sumn s) -> (code_number s <= fuel)%N -> (2 * m + 1 + code_number s)%:R * u <= 8%:R^-1 ->
  calc_matrix (g_calc g) = V ->
  (forall L, 0 <= f L <= 1) ->
  exists v, has_exp (on_ok (fun z => f z.1)) (fl_gcc_simulate A B f_abs f_sum gray fuel N s k g) v /\
    `|v - iid_exp (comps m (sumn s)) (bs_prob U s) k f| <= k%:R * gcc_error u eps N m s.
Proof. exact C75_sampler_lemma. Qed.
Print Assumptions C75_sampler.

Example C75_example (R : rcfType) (N m : nat) (s : seq nat) : (* without rounding only the resolution of random() is left *)
  gcc_error (0 : R) 0 N m s = (sumn s)%:R * (2%:R * m%:R / N%:R).
Proof.
rewrite /gcc_error /sel_error big1 ?add0r => [|i _]; first by rewrite addr0 expr1n subrr mulr0 add0r.
by rewrite /entry_error addr0 !expr1n subrr !mul0r addr0 mulr0.
Qed.

(* C75: the same for the strategy with mode assignments *)
Theorem C75_mode_assignment_sampler :
  forall (R : rcfType) (u eps : R) (A : arith (ComplexField.complex_numFieldType R)) (B : arith R) (f_abs : (ComplexField.complex_numFieldType R) -> R) (f_sum : seq R -> R) (N : nat)
    (gray : nat -> seq nat) (fuel m : nat) (U V : seq (seq (ComplexField.complex_numFieldType R))) (s : seq nat) (k : nat) (g : gcc R) (f : seq (seq nat) -> R),
  0 <= u -> accurate (u%:C)%C A -> accurate u B -> (forall z, `|f_abs z - py_abs z| <= u * py_abs z) -> accurate_sum u f_sum ->
  (0 < N)%N -> unitary m U -> is_square m V -> 0 <= eps ->
  (forall j i, (j < m)%N -> (i < m)%N -> `|ent V j i - ent U j i| <= (eps%:C)%C) ->
  size s = m -> gray_ok gray (sumn s) -> (code_number s <= fuel)%N -> (2 * m + 1 + code_number s)%:R * u <= 8%:R^-1 ->
  calc_matrix (g_calc g) = V ->
  (0 < m)%N -> (forall L, 0 <= f L <= 1) ->
  exists v, has_exp (on_ok (fun z => f z.1)) (fl_ma_simulate A B f_abs f_sum gray fuel N s k g) v /\
    `|v - iid_exp (comps m (sumn s)) (bs_prob U s) k f| <= k%:R * gcc_error u eps N m s.
Proof. exact C75_mode_assignment_sampler_lemma. Qed.
Print Assumptions C75_mode_assignment_sampler.

(* C75: the probability that all k samples are returned *)
Theorem C75_seldom_fails :
  forall (R : rcfType) (u eps : R) (A : arith (ComplexField.complex_numFieldType R)) (B : arith R) (f_abs : (ComplexField.complex_numFieldType R) -> R) (f_sum : seq R -> R) (N : nat)
    (gray : nat -> seq nat) (fuel m : nat) (U V : seq (seq (ComplexField.complex_numFieldType R))) (s : seq nat) (k : nat) (g : gcc R),
  0 <= u -> accurate (u%:C)%C A -> accurate u B -> (forall z, `|f_abs z - py_abs z| <= u * py_abs z) -> accurate_sum u f_sum ->
  (0 < N)%N -> unitary m U -> is_square m V -> 0 <= eps ->
  (forall j i, (j < m)%N -> (i < m)%N -> `|ent V j i - ent U j i| <= (eps%:C)%C) ->
  size s = m -> gray_ok gray (sumn s) -> (code_number s <= fuel)%N -> (2 * m + 1 + code_number s)%:R * u <= 8%:R^-1 ->
  calc_matrix (g_calc g) = V ->
  exists v, has_exp (on_ok (fun=> 1)) (fl_gcc_simulate A B f_abs f_sum gray fuel N s k g) v /\ 1 - k%:R * gcc_error u eps N m s <= v.
Proof. exact C75_seldom_fails_lemma. Qed.
Print Assumptions C75_seldom_fails.

(* C75: if sum() adds from left to right and the product of random() with a positive number is smaller than this number, as with correct rounding, the selection never leaves the list; with entries that add up to 0 it always does *)
Theorem C75_selection_in_range :
  forall (R : rcfType) (B : arith R) (N k : nat) (pmf : seq R),
  (forall x, 0 < x -> f_mul B (k%:R / N%:R) x < x) ->
  let f_sum := foldl (f_add B) 0 in
  let i := fl_cum_search B (f_mul B (k%:R / N%:R) (f_sum pmf)) 0 0 pmf in
  (0 < f_sum pmf -> (i < size pmf)%N) /\
  (all (fun x => x == 0) pmf -> f_add B 0 0 = 0 -> f_mul B (k%:R / N%:R) 0 = 0 -> i = size pmf).
Proof. exact C75_selection_in_range_lemma. Qed.
Print Assumptions C75_selection_in_range.

(* C75: only accurate, the selection may leave the list: an arithmetic with relative errors of at most u for every u > 0, a perfectly normalised pmf, a value of random() *)
Theorem C75_index_error_refuted :
  forall (R : rcfType) (u : R) (k : nat) (p : R),
  0 < u -> u * k%:R >= 1 -> 0 < p ->
  exists (B : arith R) (f_sum : seq R -> R), [/\ accurate u B, accurate_sum u f_sum &
    forall g : gcc R, dget (g_pmfs g) (g_key g) = Some [:: p] ->
    fl_sample_with B f_sum k.+1 g k = Err IndexError].
Proof. exact C75_index_error_refuted_lemma. Qed.
Print Assumptions C75_index_error_refuted.
