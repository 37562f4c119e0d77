(* Property theorems: C59 (accuracy of the distributions estimated from samples, on the real numbers of the standard library).  Only statements; proofs elsewhere. *)
From Coq Require Import Reals ZArith.
From mathcomp Require Import all_ssreflect all_algebra complex zify.
From Verif Require Import Base ProofDist1 SpecStates SpecPerm SpecBS SpecProb ModelStates ModelPerm ModelDist ModelGcc ModelGccB SpecGcc ModelQC ModelBound ModelSample SpecSample RealInst Witness ModelStates LemAcc.
Set Implicit Arguments.
Unset Strict Implicit.
Unset Printing Implicit Defensive.
Import Order.TTheory GRing.Theory Num.Theory.
Local Open Scope ring_scope.
Local Open Scope py_scope.

(* C59: any strategy returning k independent samples of a distribution P on the outcomes.  The probability that the calculation fails, or that its result is at least as far from P as count_tv_distance_error_bound_of_experiment_results tells, is at most p *)
Theorem C59_accuracy :
  forall (G : Type) (simulate : seq nat -> nat -> G -> rprog R_rcfType (res (seq (seq nat) * G))) (se : pyerr) (fuel m : nat)
    (c : scalc R_rcfType G) (outs S : seq (seq nat)) (P : seq nat -> R_rcfType) (k : nat) (p : R_rcfType),
  (if sc_outcomes c is Some o then Ok o else
     generate_possible_states fuel (Posz (cf_left (sc_conf c))) (Posz (cf_modes (sc_conf c))) false) = Ok outs ->
  modes_of m outs -> uniq outs -> uniq S -> S =i outs -> (forall t, t \in S -> 0 <= P t) -> \sum_(t <- S) P t = 1 ->
  (0 < k)%N -> samples_ok (simulate (cf_state (sc_conf c)) k (sc_strategy c)) (modes_of m) -> samples_law (simulate (cf_state (sc_conf c)) k (sc_strategy c)) k S P -> Rlt 0 p -> Rle p 1 ->
  exists2 v, has_exp (far_from [seq P t | t <- outs] (tv_error_bound (Z.of_nat (size outs)) (Z.of_nat k) p)) (approximate_distribution simulate se fuel k c) v & v <= p.
Proof. exact C59_accuracy_lemma. Qed.
Print Assumptions C59_accuracy.

(* C59: with the number of samples told by compute_minimal_number_of_samples_for_desired_accuracy the distance is below d with probability at least 1 - p *)
Theorem C59_minimal_samples :
  forall (G : Type) (simulate : seq nat -> nat -> G -> rprog R_rcfType (res (seq (seq nat) * G))) (se : pyerr) (fuel m : nat)
    (c : scalc R_rcfType G) (outs S : seq (seq nat)) (P : seq nat -> R_rcfType) (p d : R_rcfType),
  (if sc_outcomes c is Some o then Ok o else
     generate_possible_states fuel (Posz (cf_left (sc_conf c))) (Posz (cf_modes (sc_conf c))) false) = Ok outs ->
  modes_of m outs -> uniq outs -> uniq S -> S =i outs -> (forall t, t \in S -> 0 <= P t) -> \sum_(t <- S) P t = 1 ->
  let k := Z.to_nat (minimal_samples (Z.of_nat (size outs)) p d) in
  samples_ok (simulate (cf_state (sc_conf c)) k (sc_strategy c)) (modes_of m) -> samples_law (simulate (cf_state (sc_conf c)) k (sc_strategy c)) k S P -> Rlt 0 p -> Rle p 1 -> Rlt 0 d ->
  exists2 v, has_exp (far_from [seq P t | t <- outs] d) (approximate_distribution simulate se fuel k c) v & v <= p.
Proof. exact C59_minimal_samples_lemma. Qed.
Print Assumptions C59_minimal_samples.

(* C59: the generalised Cliffords strategy and the exact calculator for the same experiment, without a list of outcomes: k samples give a distribution closer to the exact one than the bound with probability at least 1 - p *)
Theorem C59_gcc_agrees_with_exact :
  forall (H : eqType) (hash : seq nat -> H) (gray : nat -> seq nat) (se : pyerr) (m : nat) (U : seq (seq (ComplexField.complex_numFieldType R_rcfType))) (s : seq nat)
    (lost : int) (eta : R_rcfType) (a : any_calc (ComplexField.complex_numFieldType R_rcfType)) (n k : nat) (x : gcc R_rcfType) (p : R_rcfType),
  unitary m U -> size s = m -> (0 < m)%N -> gray_ok gray (sumn s) ->
  (forall t t', substate t s -> substate t' s -> hash t = hash t' -> t = t') ->
  calc_matrix (g_calc x) = U -> (0 < k)%N -> Rlt 0 p -> Rle p 1 ->
  exists f0, forall fuel, (f0 <= fuel)%N ->
  let cfg := Config U s (sumn s) m lost (sumn s) eta in
  exists D a', fixed_distribution hash gray fuel cfg a = Ok (D, a') /\
  exists2 v, has_exp (far_from D (tv_error_bound (Z.of_nat (size D)) (Z.of_nat k) p))
    (approximate_distribution (gcc_simulate gray fuel) se fuel k (SCalc cfg x None n)) v & v <= p.
Proof. exact C59_gcc_agrees_with_exact_lemma. Qed.
Print Assumptions C59_gcc_agrees_with_exact.

(* C59: uniform losses, version B of the strategy and the exact calculator with uniform losses, whose outcomes are given to the sample-based one *)
Theorem C59_uniform_losses_agrees_with_exact :
  forall (H : eqType) (hash : seq nat -> H) (gray : nat -> seq nat) (se : pyerr) (m : nat) (U : seq (seq (ComplexField.complex_numFieldType R_rcfType))) (s : seq nat)
    (lost : int) (left : nat) (eta : R_rcfType) (a : any_calc (ComplexField.complex_numFieldType R_rcfType)) (n k : nat) (x : ugccb R_rcfType) (p : R_rcfType),
  unitary m U -> size s = m -> (0 < m)%N -> gray_ok gray (sumn s) ->
  (forall t t', substate t s -> substate t' s -> hash t = hash t' -> t = t') -> 0 <= eta <= 1 ->
  calc_matrix (b_calc (ub_b x)) = U -> ub_eta x = eta -> (0 < k)%N -> Rlt 0 p -> Rle p 1 ->
  exists f0, forall fuel, (f0 <= fuel)%N ->
  let cfg := Config U s (sumn s) m lost left eta in
  exists L D, [/\ uniform_outcomes fuel (new_uniform_calc cfg a) = Ok L, uniform_distribution hash gray fuel (new_uniform_calc cfg a) = Ok D
  & exists2 v, has_exp (far_from D (tv_error_bound (Z.of_nat (size D)) (Z.of_nat k) p))
    (approximate_distribution (ugccb_simulate fuel) se fuel k (SCalc cfg x (Some L) n)) v & v <= p].
Proof. exact C59_uniform_losses_agrees_with_exact_lemma. Qed.
Print Assumptions C59_uniform_losses_agrees_with_exact.

(* C59: calculate_distribution, which draws 5000 samples *)
Theorem C59_calculate_distribution :
  forall (H : eqType) (hash : seq nat -> H) (gray : nat -> seq nat) (se : pyerr) (m : nat) (U : seq (seq (ComplexField.complex_numFieldType R_rcfType))) (s : seq nat)
    (lost : int) (eta : R_rcfType) (a : any_calc (ComplexField.complex_numFieldType R_rcfType)) (n : nat) (x : gcc R_rcfType) (p : R_rcfType),
  unitary m U -> size s = m -> (0 < m)%N -> gray_ok gray (sumn s) ->
  (forall t t', substate t s -> substate t' s -> hash t = hash t' -> t = t') ->
  calc_matrix (g_calc x) = U -> Rlt 0 p -> Rle p 1 ->
  exists f0, forall fuel, (f0 <= fuel)%N ->
  let cfg := Config U s (sumn s) m lost (sumn s) eta in
  exists D a', fixed_distribution hash gray fuel cfg a = Ok (D, a') /\
  exists2 v, has_exp (far_from D (tv_error_bound (Z.of_nat (size D)) 5000 p))
    (sample_distribution (gcc_simulate gray fuel) se fuel (SCalc cfg x None n)) v & v <= p.
Proof. exact C59_calculate_distribution_lemma. Qed.
Print Assumptions C59_calculate_distribution.

Example C59_example : (* two photons on a balanced beam splitter *)
  exists f0, forall fuel, (f0 <= fuel)%N ->
  let a := generate_calculator (CalcFactory (splitter R_rcfType) [::] [::] RYSER) in
  let cfg := Config (splitter R_rcfType) [:: 1; 1]%N 2 2 0 2 1 in
  exists D a', fixed_distribution id reflected_gray fuel cfg a = Ok (D, a') /\
  exists2 v, has_exp (far_from D (tv_error_bound (Z.of_nat (size D)) 5000 1))
    (sample_distribution (gcc_simulate reflected_gray fuel) ValueError fuel (SCalc cfg (new_gcc a) None 9)) v & v <= 1.
Proof.
exact: (@C59_calculate_distribution _ id reflected_gray ValueError 2 (splitter R_rcfType) [:: 1; 1]%N 0 1 _ 9
  (new_gcc (generate_calculator (CalcFactory (splitter R_rcfType) [::] [::] RYSER))) 1
  (splitter_unitary _) erefl isT (@reflected_gray_ok _) (fun _ _ _ _ e => e) erefl Rlt_0_1 (Rle_refl 1)).
Qed.
