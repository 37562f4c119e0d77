(* Property theorems: C77 (rounding errors of version B of the samplers).  Only statements; proofs elsewhere. *)
From mathcomp Require Import all_ssreflect all_algebra complex ring zify.
From Verif Require Import Base SpecStates Combi SpecPerm SpecBS ModelStates ModelPerm ModelDist ProofDist1 SpecProb ModelGcc ModelGccB ModelFloat ModelFloatGcc ModelFloatGccB SpecFloat SpecFloatGcc SpecFloatSub SpecFloatGccB ProofGccB2 LemFloatGccB.
Set Implicit Arguments.
Unset Strict Implicit.
Unset Printing Implicit Defensive.
Import Order.TTheory GRing.Theory Num.Theory.
Local Open Scope ring_scope.
Local Open Scope py_scope.

(* C77: with exact operations the probabilities, the distribution function used by choice and the weights of the particle numbers are those of the model with exact numbers; choice rejects the same lists, and draws with f_search and N equally likely numbers instead of find and the interval *)
Theorem C77_exact_arithmetic :
  forall (R : rcfType) (fuel N n : nat) (b : gccb R) (p : seq R) (eta : R) (f_search : R -> seq R -> nat),
  let A := exact_arith (ComplexField.complex_numFieldType R) in let B := exact_arith R in let f_abs := @py_abs R in let f_sum := @py_sum R in
  [/\ fl_compute_pmf A B f_abs f_sum fuel b = compute_pmf fuel b,
      fl_ub_weights B n eta = ub_binomial_weights n eta,
      fl_choice_cdf B p = choice_cdf p &
      exists rejected : bool,
        np_choice p = (if rejected then Ret (Err ValueError)
          else Unif (fun v => Ret (Ok (find (fun c => v < c) (choice_cdf p))))) /\
        fl_np_choice B f_sum f_search N p = (if rejected then Ret (Err ValueError)
          else Int N (fun k => Ret (Ok (f_search (k%:R / N%:R) (choice_cdf p)))))].
Proof. exact C77_exact_arithmetic_lemma. Qed.
Print Assumptions C77_exact_arithmetic.

(* C77: the binary search of numpy and find are searches on the right side, and on a sorted list there is only one *)
Theorem C77_binary_search :
  forall (R : rcfType), [/\ right_search (@npy_search R), right_search (fun (v : R) l => find (fun c => v < c) l) &
    forall (s1 s2 : R -> seq R -> nat) (v : R) (l : seq R), right_search s1 -> right_search s2 ->
      sorted (fun x y => x <= y) l -> s1 v l = s2 v l].
Proof. exact C77_binary_search_lemma. Qed.
Print Assumptions C77_binary_search.

(* C77: k samples of version B without losses.  The stored matrix V is up to eps the unitary matrix U, the sums of sum() and of the check of choice and the single operations are accurate up to u, choice searches on the right side with one of N equally likely numbers.  Expectations of any test f (0 if an error is raised) differ from those of k exact independent samples by at most k gccb_error *)
Theorem C77_sampler :
  forall (R : rcfType) (u eps : R) (A : arith (ComplexField.complex_numFieldType R)) (B : arith R)
    (f_abs : (ComplexField.complex_numFieldType R) -> R) (f_sum f_check : seq R -> R) (f_search : R -> seq R -> nat) (fuel N m : nat)
    (U V : seq (seq (ComplexField.complex_numFieldType R))) (s : seq nat) (k : nat) (b : gccb R) (f : seq (seq nat) -> R),
  0 <= u -> accurate (u%:C)%C A -> accurate u B -> (forall z, `|f_abs z - py_abs z| <= u * py_abs z) ->
  accurate_sum u f_sum -> accurate_sum u f_check -> right_search f_search ->
  (0 < N)%N -> unitary m U -> is_square m V -> 0 <= eps ->
  (forall j i, (j < m)%N -> (i < m)%N -> `|ent V j i - ent U j i| <= (eps%:C)%C) ->
  size s = m -> (code_number s <= fuel)%N -> (9 * m + 4)%:R * u <= (2%:R ^+ 27)^-1 ->
  calc_matrix (b_calc b) = V -> (forall L, 0 <= f L <= 1) ->
  exists v, has_exp (on_ok (fun z => f z.1)) (fl_gccb_simulate A B f_abs f_sum f_check f_search fuel N s k b) v /\
    `|v - iid_exp (comps m (sumn s)) (bs_prob U s) k f| <= k%:R * gccb_error u eps N m s (sumn s).
Proof. exact C77_sampler_lemma. Qed.
Print Assumptions C77_sampler.

Example C77_example (R : rcfType) (N m : nat) (s : seq nat) (l : nat) : (* without rounding only the resolution of the draws is left *)
  gccb_error (0 : R) 0 N m s l = \sum_(i < l) m%:R ^+ i * (2%:R * m%:R * (N%:R^-1 * (m%:R * i.+1`!%:R ^+ 2))).
Proof.
apply: eq_bigr => i _; rewrite /square_error /choice_error !addr0 !expr1n subrr !mul0r !add0r.
by [].
Qed.

(* C77: the same with uniform losses: the number of particles left is drawn from rounded binomial weights first *)
Theorem C77_uniform_losses :
  forall (R : rcfType) (u eps : R) (A : arith (ComplexField.complex_numFieldType R)) (B : arith R)
    (f_abs : (ComplexField.complex_numFieldType R) -> R) (f_sum f_check : seq R -> R) (f_search : R -> seq R -> nat) (fuel N m : nat)
    (U V : seq (seq (ComplexField.complex_numFieldType R))) (s : seq nat) (k : nat) (x : ugccb R) (eta : R) (f : seq (seq nat) -> R),
  0 <= u -> accurate (u%:C)%C A -> accurate u B -> (forall z, `|f_abs z - py_abs z| <= u * py_abs z) ->
  accurate_sum u f_sum -> accurate_sum u f_check -> right_search f_search ->
  (0 < N)%N -> unitary m U -> is_square m V -> 0 <= eps ->
  (forall j i, (j < m)%N -> (i < m)%N -> `|ent V j i - ent U j i| <= (eps%:C)%C) ->
  size s = m -> (code_number s <= fuel)%N -> (9 * m + 4)%:R * u <= (2%:R ^+ 27)^-1 ->
  0 <= eta <= 1 -> calc_matrix (b_calc (ub_b x)) = V -> ub_eta x = eta -> (forall L, 0 <= f L <= 1) ->
  exists v, has_exp (on_ok (fun z => f z.1)) (fl_ugccb_simulate A B f_abs f_sum f_check f_search fuel N s k x) v /\
    `|v - iid_exp (lcomps m (sumn s)) (uniform_loss_prob U s eta) k f| <= k%:R * ugccb_error u eps N m s.
Proof. exact C77_uniform_losses_lemma. Qed.
Print Assumptions C77_uniform_losses.

(* C77: the probability that all k samples are returned, without and with losses *)
Theorem C77_seldom_fails :
  forall (R : rcfType) (u eps : R) (A : arith (ComplexField.complex_numFieldType R)) (B : arith R)
    (f_abs : (ComplexField.complex_numFieldType R) -> R) (f_sum f_check : seq R -> R) (f_search : R -> seq R -> nat) (fuel N m : nat)
    (U V : seq (seq (ComplexField.complex_numFieldType R))) (s : seq nat) (k : nat) (b : gccb R) (x : ugccb R),
  0 <= u -> accurate (u%:C)%C A -> accurate u B -> (forall z, `|f_abs z - py_abs z| <= u * py_abs z) ->
  accurate_sum u f_sum -> accurate_sum u f_check -> right_search f_search ->
  (0 < N)%N -> unitary m U -> is_square m V -> 0 <= eps ->
  (forall j i, (j < m)%N -> (i < m)%N -> `|ent V j i - ent U j i| <= (eps%:C)%C) ->
  size s = m -> (code_number s <= fuel)%N -> (9 * m + 4)%:R * u <= (2%:R ^+ 27)^-1 ->
  (calc_matrix (b_calc b) = V ->
   exists v, has_exp (on_ok (fun=> 1)) (fl_gccb_simulate A B f_abs f_sum f_check f_search fuel N s k b) v /\
     1 - k%:R * gccb_error u eps N m s (sumn s) <= v) /\
  (0 <= ub_eta x <= 1 -> calc_matrix (b_calc (ub_b x)) = V ->
   exists v, has_exp (on_ok (fun=> 1)) (fl_ugccb_simulate A B f_abs f_sum f_check f_search fuel N s k x) v /\
     1 - k%:R * ugccb_error u eps N m s <= v).
Proof. exact C77_seldom_fails_lemma. Qed.
Print Assumptions C77_seldom_fails.
