(* Property theorems: C70 (close networks have close distributions).  Only statements; proofs elsewhere. *)
From mathcomp Require Import all_ssreflect all_algebra complex ring zify.
From Verif Require Import Base SpecStates Combi SpecPerm SpecBS ModelStates ModelPerm ModelDist ProofDist1 SpecProb ModelGcc ModelGccB ModelNet SpecNet SpecGcc SpecMat ModelMat ModelQC LemPert.
Set Implicit Arguments.
Unset Strict Implicit.
Unset Printing Implicit Defensive.
Import Order.TTheory GRing.Theory Num.Theory.
Local Open Scope ring_scope.
Local Open Scope py_scope.

(* C70: what matrix_distance returns for two networks bounds the total variation distance of the distributions with l particles left, per particle *)
Theorem C70_fixed_losses :
  forall (R : rcfType) (H : eqType) (hash : seq nat -> H) (gray : nat -> seq nat) (m : nat)
    (U V : seq (seq (ComplexField.complex_numFieldType R))) (s : seq nat) (eta d : R) (lost : int) (l : nat) (a b : any_calc (ComplexField.complex_numFieldType R)),
  unitary m U -> unitary m V -> size s = m -> (0 < m)%N -> gray_ok gray (sumn s) ->
  (forall t t', substate t s -> substate t' s -> hash t = hash t' -> t = t') -> (l <= sumn s)%N ->
  matrix_distance U V = Ok d ->
  exists f0, forall fuel, (f0 <= fuel)%N -> exists P a' Q b' t,
  [/\ fixed_distribution hash gray fuel (Config U s (sumn s) m lost l eta) a = Ok (P, a'),
      fixed_distribution hash gray fuel (Config V s (sumn s) m lost l eta) b = Ok (Q, b'),
      tvd_lists P Q = Ok t & t <= l%:R * d].
Proof. exact C70_fixed_losses_lemma. Qed.
Print Assumptions C70_fixed_losses.

(* C70: with uniform losses the mean number of particles left takes the place of l *)
Theorem C70_uniform_losses :
  forall (R : rcfType) (H : eqType) (hash : seq nat -> H) (gray : nat -> seq nat) (m : nat)
    (U V : seq (seq (ComplexField.complex_numFieldType R))) (s : seq nat) (eta d : R) (lost : int) (left : nat) (a b : any_calc (ComplexField.complex_numFieldType R)),
  unitary m U -> unitary m V -> size s = m -> (0 < m)%N -> gray_ok gray (sumn s) ->
  (forall t t', substate t s -> substate t' s -> hash t = hash t' -> t = t') -> 0 <= eta <= 1 ->
  matrix_distance U V = Ok d ->
  exists f0, forall fuel, (f0 <= fuel)%N -> exists P Q t,
  [/\ uniform_distribution hash gray fuel (new_uniform_calc (Config U s (sumn s) m lost left eta) a) = Ok P,
      uniform_distribution hash gray fuel (new_uniform_calc (Config V s (sumn s) m lost left eta) b) = Ok Q,
      tvd_lists P Q = Ok t & t <= (sumn s)%:R * eta * d].
Proof. exact C70_uniform_losses_lemma. Qed.
Print Assumptions C70_uniform_losses.

(* C70: how often k samples pass any test (f is 1 for the lists which pass, 0 for the others; more generally between 0 and 1) *)
Theorem C70_sampler :
  forall (R : rcfType) (gray : nat -> seq nat) (fuel m : nat) (U V : seq (seq (ComplexField.complex_numFieldType R))) (s : seq nat) (k : nat) (d : R)
    (x y : gcc R) (f : seq (seq nat) -> R),
  unitary m U -> unitary m V -> size s = m -> gray_ok gray (sumn s) -> (\prod_(x <- s) x.+1 <= fuel)%N ->
  calc_matrix (g_calc x) = U -> calc_matrix (g_calc y) = V -> (forall L, 0 <= f L <= 1) ->
  matrix_distance U V = Ok d ->
  exists p q, [/\ has_exp (on_ok (fun z => f z.1)) (gcc_simulate gray fuel s k x) p,
    has_exp (on_ok (fun z => f z.1)) (gcc_simulate gray fuel s k y) q
  & `|p - q| <= k%:R * ((sumn s)%:R * d)].
Proof. exact C70_sampler_lemma. Qed.
Print Assumptions C70_sampler.

(* C70: of the sampler with uniform losses *)
Theorem C70_uniform_sampler :
  forall (R : rcfType) (fuel m : nat) (U V : seq (seq (ComplexField.complex_numFieldType R))) (s : seq nat) (eta : R) (k : nat) (d : R)
    (x y : ugccb R) (f : seq (seq nat) -> R),
  unitary m U -> unitary m V -> size s = m -> (\prod_(x <- s) x.+1 <= fuel)%N -> 0 <= eta <= 1 ->
  calc_matrix (b_calc (ub_b x)) = U -> ub_eta x = eta -> calc_matrix (b_calc (ub_b y)) = V -> ub_eta y = eta ->
  (forall L, 0 <= f L <= 1) -> matrix_distance U V = Ok d ->
  exists p q, [/\ has_exp (on_ok (fun z => f z.1)) (ugccb_simulate fuel s k x) p,
    has_exp (on_ok (fun z => f z.1)) (ugccb_simulate fuel s k y) q
  & `|p - q| <= k%:R * ((sumn s)%:R * eta * d)].
Proof. exact C70_uniform_sampler_lemma. Qed.
Print Assumptions C70_uniform_sampler.
