(* Property theorems: C50, C51, C58 (strategies with independent particles).  Only statements; proofs elsewhere. *)
From mathcomp Require Import all_ssreflect all_algebra complex ring zify.
From Verif Require Import Base SpecStates Combi SpecPerm SpecBS SpecProb ModelGcc ModelGccB ModelNet SpecNet SpecGcc ModelBobs ModelFixed SpecFixed LemNet LemFixed.
Set Implicit Arguments.
Unset Strict Implicit.
Unset Printing Implicit Defensive.
Import Order.TTheory GRing.Theory Num.Theory.
Local Open Scope ring_scope.
Local Open Scope py_scope.

(* C50: the constructor, with and without a network strategy *)
Theorem C50_new_object :
  forall (R : rcfType) (svd : seq (seq (ComplexField.complex_numFieldType R)) -> res (seq (seq (ComplexField.complex_numFieldType R)) * seq R * seq (seq (ComplexField.complex_numFieldType R)))) (m : nat) (M : seq (seq (ComplexField.complex_numFieldType R))) (l : nat),
  svd_ok svd -> (0 < m)%N -> subunitary m M ->
  (exists2 x, new_fixed svd M l m None = Ok x & fixed_of svd m M l x) /\
  (exists2 x, new_fixed svd M l m (Some (LosslessNetwork M)) = Ok x & fixed_of svd m M l x).
Proof. exact C50_new_object_lemma. Qed.
Print Assumptions C50_new_object.

(* C50: every run, whatever the phases.  No run raises; the samples have m modes and at most l particles, exactly l when the network has no losses and the n input particles fit into the modes; without input particles the l particles left all come out of the first mode *)
Theorem C50_shape :
  forall (R : rcfType) (svd : seq (seq (ComplexField.complex_numFieldType R)) -> res (seq (seq (ComplexField.complex_numFieldType R)) * seq R * seq (seq (ComplexField.complex_numFieldType R)))) (cis : R -> (ComplexField.complex_numFieldType R)) (m : nat) (M : seq (seq (ComplexField.complex_numFieldType R))) (l : nat) (x : fixed R) (s : seq nat) (k : nat),
  svd_ok svd -> cis_ok cis -> (0 < m)%N -> subunitary m M -> fixed_of svd m M l x ->
  always (fun y => exists L, [/\ y = Ok (L, x), size L = k, forall t, t \in L -> size t = m /\ (sumn t <= l)%N,
      sumn s = 0%N -> L = nseq k (l :: nseq m.-1 0%N)
    & unitary m M -> (0 < sumn s <= m)%N -> forall t, t \in L -> sumn t = l])
    (fixed_simulate cis (@np_rand R) s k x).
Proof. exact C50_shape_lemma. Qed.
Print Assumptions C50_shape.

(* C50: without input particles there is none to be left, but every sample has l particles *)
Theorem C50_no_particles_refuted :
  forall (R : rcfType) (svd : seq (seq (ComplexField.complex_numFieldType R)) -> res (seq (seq (ComplexField.complex_numFieldType R)) * seq R * seq (seq (ComplexField.complex_numFieldType R)))) (cis : R -> (ComplexField.complex_numFieldType R)) (m : nat) (M : seq (seq (ComplexField.complex_numFieldType R))) (l : nat) (x : fixed R) (s : seq nat),
  svd_ok svd -> cis_ok cis -> (0 < m)%N -> subunitary m M -> fixed_of svd m M l x -> sumn s = 0%N -> (0 < l)%N ->
  always (fun y => exists2 t, y = Ok ([:: t], x) & ~ (sumn t <= sumn s)%N) (fixed_simulate cis (@np_rand R) s 1 x).
Proof. exact C50_no_particles_refuted_lemma. Qed.
Print Assumptions C50_no_particles_refuted.

(* C50: the exact law, for draws of the phases which take the values in S with the probabilities W (in particular given fixed phases, S = [:: d]): the l particles fall independently, in mode i with the squared length of the i-th entry of the evolved state *)
Theorem C50_law :
  forall (R : rcfType) (svd : seq (seq (ComplexField.complex_numFieldType R)) -> res (seq (seq (ComplexField.complex_numFieldType R)) * seq R * seq (seq (ComplexField.complex_numFieldType R)))) (cis : R -> (ComplexField.complex_numFieldType R)) (m : nat) (M : seq (seq (ComplexField.complex_numFieldType R))) (l : nat) (x : fixed R) (s : seq nat) (k : nat)
    (rand : nat -> rprog R (res (seq R))) (S : seq (seq R)) (W : seq R -> R),
  svd_ok svd -> cis_ok cis -> (0 < m)%N -> subunitary m M -> fixed_of svd m M l x -> (0 < sumn s)%N ->
  always (fun r => exists2 d, r = Ok d & d \in S) (rand m) ->
  (forall f, has_exp (on_ok f) (rand m) (\sum_(d <- S) W d * f d)) ->
  iid_samples (fixed_simulate cis rand s k x) k [pred t | (size t == m) && (sumn t <= l)%N]
    (fixed_law cis m M (sumn s) l S W).
Proof. exact C50_law_lemma. Qed.
Print Assumptions C50_law.

(* C50: the probabilities of a single sample sum up to 1, and they are not negative *)
Theorem C50_distribution :
  forall (R : rcfType) (cis : R -> (ComplexField.complex_numFieldType R)) (m : nat) (M : seq (seq (ComplexField.complex_numFieldType R))) (n l : nat) (S : seq (seq R)) (W : seq R -> R),
  cis_ok cis -> (0 < m)%N -> subunitary m M -> (0 < n)%N -> (forall d, d \in S -> 0 <= W d) -> \sum_(d <- S) W d = 1 ->
  (forall t, 0 <= fixed_law cis m M n l S W t) /\
  exists L, [/\ uniq L, L =i [pred t | (size t == m) && (sumn t <= l)%N] & \sum_(t <- L) fixed_law cis m M n l S W t = 1].
Proof. exact C50_distribution_lemma. Qed.
Print Assumptions C50_distribution.

(* C51: every run.  No run raises; the requested number of samples, each with at most the particles of the input *)
Theorem C51_shape :
  forall (R : rcfType) (svd : seq (seq (ComplexField.complex_numFieldType R)) -> res (seq (seq (ComplexField.complex_numFieldType R)) * seq R * seq (seq (ComplexField.complex_numFieldType R)))) (cis : R -> (ComplexField.complex_numFieldType R)) (m : nat) (M : seq (seq (ComplexField.complex_numFieldType R))) (eta : R) (s : seq nat) (k : nat),
  svd_ok svd -> cis_ok cis -> (0 < m)%N -> subunitary m M -> 0 <= eta <= 1 ->
  always (fun y => exists L, [/\ y = Ok (L, Uniform M m eta), size L = k & forall t, t \in L -> size t = m /\ (sumn t <= sumn s)%N])
    (uniform_simulate svd cis (@np_rand R) s k (Uniform M m eta)).
Proof. exact C51_shape_lemma. Qed.
Print Assumptions C51_shape.

(* C51: the exact law; the number of particles left has the binomial distribution *)
Theorem C51_law :
  forall (R : rcfType) (svd : seq (seq (ComplexField.complex_numFieldType R)) -> res (seq (seq (ComplexField.complex_numFieldType R)) * seq R * seq (seq (ComplexField.complex_numFieldType R)))) (cis : R -> (ComplexField.complex_numFieldType R)) (m : nat) (M : seq (seq (ComplexField.complex_numFieldType R))) (eta : R) (s : seq nat) (k : nat)
    (rand : nat -> rprog R (res (seq R))) (S : seq (seq R)) (W : seq R -> R),
  svd_ok svd -> cis_ok cis -> (0 < m)%N -> subunitary m M -> 0 <= eta <= 1 ->
  always (fun r => exists2 d, r = Ok d & d \in S) (rand m) ->
  (forall f, has_exp (on_ok f) (rand m) (\sum_(d <- S) W d * f d)) ->
  iid_samples (uniform_simulate svd cis rand s k (Uniform M m eta)) k [pred t | (size t == m) && (sumn t <= sumn s)%N]
    (uniform_law cis m M (sumn s) eta S W).
Proof. exact C51_law_lemma. Qed.
Print Assumptions C51_law.

(* C51: a transmissivity above 1 raises *)
Theorem C51_outside :
  forall (R : rcfType) (svd : seq (seq (ComplexField.complex_numFieldType R)) -> res (seq (seq (ComplexField.complex_numFieldType R)) * seq R * seq (seq (ComplexField.complex_numFieldType R)))) (cis : R -> (ComplexField.complex_numFieldType R)) (m : nat) (M : seq (seq (ComplexField.complex_numFieldType R))) (eta : R) (s : seq nat) (k : nat) rand,
  (0 < sumn s)%N -> (0 < k)%N -> 1 < eta ->
  uniform_simulate svd cis rand s k (Uniform M m eta) = Ret (Err ValueError).
Proof. exact C51_outside_lemma. Qed.
Print Assumptions C51_outside.

(* C58: one particle left of n, one in each of the first n modes.  With uncorrelated phases, like independent uniform ones, the approximation has the exact law *)
Theorem C58_one_particle_exact :
  forall (R : rcfType) (cis : R -> (ComplexField.complex_numFieldType R)) (m : nat) (M : seq (seq (ComplexField.complex_numFieldType R))) (n : nat) (S : seq (seq R)) (W : seq R -> R) (t : seq nat),
  (n <= m)%N -> uncorrelated cis m S W -> size t = m -> sumn t = 1%N ->
  fixed_law cis m M n 1 S W t = fixed_loss_prob M (nseq n 1%N ++ nseq (m - n) 0%N) t.
Proof. exact C58_one_particle_exact_lemma. Qed.
Print Assumptions C58_one_particle_exact.

(* C58: the particles of the input are taken to be in the first modes.  With one particle in the second of two modes and the identity network every sample has it in the first mode, where the exact probability is 0 *)
Theorem C58_positions_refuted :
  forall (R : rcfType) (svd : seq (seq (ComplexField.complex_numFieldType R)) -> res (seq (seq (ComplexField.complex_numFieldType R)) * seq R * seq (seq (ComplexField.complex_numFieldType R)))) (cis : R -> (ComplexField.complex_numFieldType R)) (x : fixed R),
  svd_ok svd -> cis_ok cis -> fixed_of svd 2 [:: [:: 1; 0]; [:: 0; 1]] 1 x ->
  (forall d : seq R, has_exp (on_ok (fun y => (y.1 == [:: [:: 1; 0]]%N)%:R)) (fixed_simulate cis (fun=> Ret (Ok d)) [:: 0; 1]%N 1 x) 1) /\
  fixed_loss_prob [:: [:: 1; 0]; [:: 0; 1 : (ComplexField.complex_numFieldType R)]] [:: 0; 1]%N [:: 1; 0]%N = 0.
Proof. exact C58_positions_refuted_lemma. Qed.
Print Assumptions C58_positions_refuted.

Example C58_example (R : rcfType) (cis : R -> ComplexField.complex_numFieldType R) : cis_ok cis ->
  (* two modes: the phases 0 and 1/2 of the second mode, each with probability 1/2 *)
  uncorrelated cis 2 [:: [:: 0; 0]; [:: 0; 2%:R^-1]] (fun=> 2%:R^-1).
Proof.
move=> [add n1 roots].
have c0 : cis 0 = 1 by have /(_ 1%N 0%N isT) := roots; rewrite mul0r => -[_ /(_ (dvdn0 _))].
have ch : cis 2%:R^-1 * cis 2%:R^-1 = 1 by rewrite -add -[_^-1]mul1r -splitr -(divr1 1); apply/(roots 1%N 1%N).
have cn : cis 2%:R^-1 <> 1 by rewrite -[_^-1]mul1r => /(roots 2%N 1%N isT).
have e : cis 2%:R^-1 = -1.
  have : (cis 2%:R^-1 - 1) * (cis 2%:R^-1 + 1) = 0 by rewrite -subr_sqr expr2 ch expr1n subrr.
  by move/eqP; rewrite mulf_eq0 subr_eq0 addr_eq0 => /orP[/eqP /cn|/eqP].
have h : (2%:R^-1 : R)%:C%C + (2%:R^-1 : R)%:C%C = 1 by rewrite -raddfD -[_^-1]mul1r -splitr.
have n : conjc (-1 : ComplexField.complex_numFieldType R) = -1.
  by apply/eqP; rewrite eq_complex /= ?oppr0 !eqxx.
have o : conjc (1 : ComplexField.complex_numFieldType R) = 1.
  by apply/eqP; rewrite eq_complex /= ?oppr0 !eqxx.
move=> [|[|j]] [|[|j']] // _ _; rewrite big_cons big_seq1 [nth _ _ _]/= ?[nth _ _ _]/= !(c0, e, o, n) ?mulrNN !(mulrN, mulNr, mul1r, mulr1) ?opprK //.
- exact: subrr.
- exact: subrr.
Qed.
