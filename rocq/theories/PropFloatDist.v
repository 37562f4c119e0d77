(* Property theorems: C74 (rounding errors of the exact distributions).  Only statements; proofs elsewhere. *)
From mathcomp Require Import all_ssreflect all_algebra complex.
From Verif Require Import Base SpecStates Combi SpecPerm SpecBS BsNorm ModelStates ModelPerm ModelDist ProofDist1 ModelFloat ModelFloatDist SpecFloat LemFloatDist.
Set Implicit Arguments.
Unset Strict Implicit.
Unset Printing Implicit Defensive.
Import Order.TTheory GRing.Theory Num.Theory.
Local Open Scope ring_scope.
Local Open Scope py_scope.

(* C74: with exact operations the calculators over an arithmetic are the calculators of the model *)
Theorem C74_exact_arithmetic :
  forall (R : rcfType) (H : eqType) (hash : seq nat -> H) (gray : nat -> seq nat) (fuel : nat)
    (cfg : config R) (a : any_calc (ComplexField.complex_numFieldType R)) (uc : uniform_calc R) (ts : seq (seq nat)),
  let A := exact_arith (ComplexField.complex_numFieldType R) in let B := exact_arith R in let f_abs := @py_abs R in
  [/\ fl_fixed_probabilities A B f_abs hash gray fuel cfg a ts = fixed_probabilities hash gray fuel cfg a ts,
      fl_new_uniform_calc B cfg a = new_uniform_calc cfg a
    & fl_uniform_probabilities A B f_abs hash gray fuel uc ts = uniform_probabilities hash gray fuel uc ts].
Proof. exact C74_exact_arithmetic_lemma. Qed.
Print Assumptions C74_exact_arithmetic.

(* C74: the probabilities with a fixed number of losses; any calculator object a; no entry of U exceeds mu *)
Theorem C74_fixed_loss_probabilities :
  forall (R : rcfType) (u : R) (A : arith (ComplexField.complex_numFieldType R)) (B : arith R) (f_abs : (ComplexField.complex_numFieldType R) -> R)
    (H : eqType) (hash : seq nat -> H) (gray : nat -> seq nat) (fuel m : nat) (U : seq (seq (ComplexField.complex_numFieldType R))) (s : seq nat) (mu eta : R) (lost : int) (l : nat) (a : any_calc (ComplexField.complex_numFieldType R)) (ts : seq (seq nat)),
  0 <= u -> accurate (u%:C)%C A -> accurate u B -> (forall z, `|f_abs z - py_abs z| <= u * py_abs z) ->
  is_square m U -> size s = m -> (0 < m)%N -> gray_ok gray (sumn s) -> (code_number s <= fuel)%N ->
  (forall t t', substate t s -> substate t' s -> hash t = hash t' -> t = t') ->
  entries_bounded m U (mu%:C)%C -> (l <= sumn s)%N -> all (is_state m l) ts ->
  exists ps a', [/\ fl_fixed_probabilities A B f_abs hash gray fuel (Config U s (sumn s) m lost l eta) a ts = Ok (ps, a'),
    size ps = size ts & forall i, (i < size ts)%N ->
      error_bound u (prob_roundings m l s) (any_scale l mu ^+ 2) (fixed_loss_prob U s (nth [::] ts i)) (nth 0 ps i)].
Proof. exact C74_fixed_loss_probabilities_lemma. Qed.
Print Assumptions C74_fixed_loss_probabilities.

(* C74: the probabilities with uniform losses *)
Theorem C74_uniform_loss_probabilities :
  forall (R : rcfType) (u : R) (A : arith (ComplexField.complex_numFieldType R)) (B : arith R) (f_abs : (ComplexField.complex_numFieldType R) -> R)
    (H : eqType) (hash : seq nat -> H) (gray : nat -> seq nat) (fuel m : nat) (U : seq (seq (ComplexField.complex_numFieldType R))) (s : seq nat) (mu eta : R) (lost : int) (left : nat) (a : any_calc (ComplexField.complex_numFieldType R)) (ts : seq (seq nat)),
  0 <= u -> accurate (u%:C)%C A -> accurate u B -> (forall z, `|f_abs z - py_abs z| <= u * py_abs z) ->
  is_square m U -> size s = m -> (0 < m)%N -> gray_ok gray (sumn s) -> (code_number s <= fuel)%N ->
  (forall t t', substate t s -> substate t' s -> hash t = hash t' -> t = t') ->
  entries_bounded m U (mu%:C)%C -> 0 <= eta <= 1 -> all (fun t => (size t == m) && (sumn t <= sumn s)%N) ts ->
  exists ps, [/\ fl_uniform_probabilities A B f_abs hash gray fuel
      (fl_new_uniform_calc B (Config U s (sumn s) m lost left eta) a) ts = Ok ps,
    size ps = size ts & forall i, (i < size ts)%N -> let t := nth [::] ts i in
      error_bound u (prob_roundings m (sumn t) s + 2 * sumn s + 4)
        (binomial_weight (sumn s) eta (sumn t) * any_scale (sumn t) mu ^+ 2) (uniform_loss_prob U s eta t) (nth 0 ps i)].
Proof. exact C74_uniform_loss_probabilities_lemma. Qed.
Print Assumptions C74_uniform_loss_probabilities.

(* C74: no computed probability is negative, whatever the network and the permanents, if (n + 2) u <= 1/2 *)
Theorem C74_nonnegative :
  forall (R : rcfType) (u : R) (A : arith (ComplexField.complex_numFieldType R)) (B : arith R) (f_abs : (ComplexField.complex_numFieldType R) -> R)
    (H : eqType) (hash : seq nat -> H) (gray : nat -> seq nat) (fuel m : nat)  (U : seq (seq (ComplexField.complex_numFieldType R))) (s : seq nat) (eta : R) (lost : int) (l : nat) (a : any_calc (ComplexField.complex_numFieldType R)) (ts : seq (seq nat)),
  0 <= u -> accurate u B -> (forall z, `|f_abs z - py_abs z| <= u * py_abs z) -> (sumn s + 2)%:R * u <= 2%:R^-1 ->
  0 <= eta <= 1 -> (l <= sumn s)%N -> all (fun t => sumn t <= sumn s)%N ts ->
  let cfg := Config U s (sumn s) m lost l eta in
  (forall ps a', fl_fixed_probabilities A B f_abs hash gray fuel cfg a ts = Ok (ps, a') -> forall p, p \in ps -> 0 <= p) /\
  (forall ps, fl_uniform_probabilities A B f_abs hash gray fuel (fl_new_uniform_calc B cfg a) ts = Ok ps -> forall p, p \in ps -> 0 <= p).
Proof. exact C74_nonnegative_lemma. Qed.
Print Assumptions C74_nonnegative.

(* C74: the whole distribution of a unitary network: outcomes, distance to the true distribution and sum *)
Theorem C74_fixed_loss_distribution :
  forall (R : rcfType) (u : R) (A : arith (ComplexField.complex_numFieldType R)) (B : arith R) (f_abs : (ComplexField.complex_numFieldType R) -> R)
    (H : eqType) (hash : seq nat -> H) (gray : nat -> seq nat) (m : nat) (U : seq (seq (ComplexField.complex_numFieldType R))) (s : seq nat) (eta : R) (lost : int) (l : nat) (a : any_calc (ComplexField.complex_numFieldType R)),
  0 <= u -> accurate (u%:C)%C A -> accurate u B -> (forall z, `|f_abs z - py_abs z| <= u * py_abs z) ->
  unitary m U -> size s = m -> (0 < m)%N -> gray_ok gray (sumn s) ->
  (forall t t', substate t s -> substate t' s -> hash t = hash t' -> t = t') ->
  (l <= sumn s)%N ->
  exists (L : seq (seq nat)) (f0 : nat), forall fuel, (f0 <= fuel)%N ->
  let cfg := Config U s (sumn s) m lost l eta in
  let bound := (size L)%:R * (((1 + u) ^+ prob_roundings m l s - 1) * any_scale l 1 ^+ 2) in
  exists (P : seq R) a',
  [/\ fixed_outcomes fuel cfg = Ok L, fl_fixed_distribution A B f_abs hash gray fuel cfg a = Ok (P, a'), size P = size L /\ uniq L,
      \sum_(x <- zip P L) `|x.1 - fixed_loss_prob U s x.2| <= bound & `|\sum_(p <- P) p - 1| <= bound].
Proof. exact C74_fixed_loss_distribution_lemma. Qed.
Print Assumptions C74_fixed_loss_distribution.

(* C74: the whole distribution with uniform losses *)
Theorem C74_uniform_loss_distribution :
  forall (R : rcfType) (u : R) (A : arith (ComplexField.complex_numFieldType R)) (B : arith R) (f_abs : (ComplexField.complex_numFieldType R) -> R)
    (H : eqType) (hash : seq nat -> H) (gray : nat -> seq nat) (m : nat) (U : seq (seq (ComplexField.complex_numFieldType R))) (s : seq nat) (eta : R) (lost : int) (left : nat) (a : any_calc (ComplexField.complex_numFieldType R)),
  0 <= u -> accurate (u%:C)%C A -> accurate u B -> (forall z, `|f_abs z - py_abs z| <= u * py_abs z) ->
  unitary m U -> size s = m -> (0 < m)%N -> gray_ok gray (sumn s) ->
  (forall t t', substate t s -> substate t' s -> hash t = hash t' -> t = t') ->
  0 <= eta <= 1 ->
  exists (L : seq (seq nat)) (f0 : nat), forall fuel, (f0 <= fuel)%N ->
  let uc := fl_new_uniform_calc B (Config U s (sumn s) m lost left eta) a in
  let bound := \sum_(t <- L) ((1 + u) ^+ (prob_roundings m (sumn t) s + 2 * sumn s + 4) - 1) *
      (binomial_weight (sumn s) eta (sumn t) * any_scale (sumn t) 1 ^+ 2) in
  exists P : seq R,
  [/\ uniform_outcomes fuel uc = Ok L, fl_uniform_distribution A B f_abs hash gray fuel uc = Ok P, size P = size L /\ uniq L,
      \sum_(x <- zip P L) `|x.1 - uniform_loss_prob U s eta x.2| <= bound & `|\sum_(p <- P) p - 1| <= bound].
Proof. exact C74_uniform_loss_distribution_lemma. Qed.
Print Assumptions C74_uniform_loss_distribution.
