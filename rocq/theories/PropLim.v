(* Property theorems: C71 (random phases, accuracy of the strategies with independent particles).  Only statements; proofs elsewhere. *)
From mathcomp Require Import all_ssreflect all_algebra complex ring zify.
From Verif Require Import Base SpecStates Combi SpecPerm SpecBS ModelStates ModelPerm SpecProb ModelGcc ModelGccB ModelNet SpecNet SpecGcc ModelBobs SpecFixed ModelFixed SpecLim RealInst RealCis LemLim.
Set Implicit Arguments.
Unset Strict Implicit.
Unset Printing Implicit Defensive.
Import Order.TTheory GRing.Theory Num.Theory.
Local Open Scope ring_scope.
Local Open Scope py_scope.

(* C71: the expectations with random phases are well defined, and extend those used for the other strategies *)
Theorem C71_expectations :
  forall (R : rcfType) (A : Type) (f : A -> R) (p : rprog R A) (v : R),
  (has_exp f p v -> lim_exp f p v) /\ (lim_exp f p v -> forall v', lim_exp f p v' -> v = v').
Proof. exact C71_expectations_lemma. Qed.
Print Assumptions C71_expectations.

(* C71: the law of the strategy with l particles left, for independent uniform phases.  The l particles are put independently and uniformly in the first n modes, as indistinguishable ones; d further modes, not observed, take the losses of the network *)
Theorem C71_fixed_law :
  forall (R : rcfType) (svd : seq (seq (ComplexField.complex_numFieldType R)) -> res (seq (seq (ComplexField.complex_numFieldType R)) * seq R * seq (seq (ComplexField.complex_numFieldType R)))) (cis : R -> (ComplexField.complex_numFieldType R)) (m d : nat) (M D : seq (seq (ComplexField.complex_numFieldType R))) (l : nat) (x : fixed R) (s : seq nat) (k : nat),
  Num.archimedean_axiom R -> svd_ok svd -> cis_ok cis -> cis_lipschitz cis -> (0 < m)%N -> subunitary m M -> dilation m d M D ->
  fixed_of svd m M l x -> (0 < sumn s <= m)%N ->
  lim_iid_samples (fixed_simulate cis (@np_rand R) s k x) k [pred t | (size t == m) && (sumn t <= l)%N]
    (spread_prob m d D (sumn s) l).
Proof. exact C71_fixed_law_lemma. Qed.
Print Assumptions C71_fixed_law.

(* C71: the same for the strategy with uniform losses *)
Theorem C71_uniform_law :
  forall (R : rcfType) (svd : seq (seq (ComplexField.complex_numFieldType R)) -> res (seq (seq (ComplexField.complex_numFieldType R)) * seq R * seq (seq (ComplexField.complex_numFieldType R)))) (cis : R -> (ComplexField.complex_numFieldType R)) (m d : nat) (M D : seq (seq (ComplexField.complex_numFieldType R))) (eta : R) (s : seq nat) (k : nat),
  Num.archimedean_axiom R -> svd_ok svd -> cis_ok cis -> cis_lipschitz cis -> (0 < m)%N -> subunitary m M -> dilation m d M D ->
  0 <= eta <= 1 -> (sumn s <= m)%N ->
  lim_iid_samples (uniform_simulate svd cis (@np_rand R) s k (Uniform M m eta)) k [pred t | (size t == m) && (sumn t <= sumn s)%N]
    (spread_uniform m d D (sumn s) eta).
Proof. exact C71_uniform_law_lemma. Qed.
Print Assumptions C71_uniform_law.

(* C71: for one particle in each of the first n modes the law is close to the exact one, in which l of the n particles are left.  Both are distributions, and twice their total variation distance is at most twice the probability that two of l independent uniform choices among n agree, which is at most l(l-1)/n *)
Theorem C71_fixed_accuracy :
  forall (R : rcfType) (m d n l : nat) (M D : seq (seq (ComplexField.complex_numFieldType R))),
  dilation m d M D -> (0 < n <= m)%N -> (l <= n)%N ->
  (forall t, 0 <= spread_prob m d D n l t /\ 0 <= lost_prob d D (one_each m n) l t) /\
  exists S, [/\ uniq S, S =i [pred t | (size t == m) && (sumn t <= l)%N],
    \sum_(t <- S) spread_prob m d D n l t = 1 /\ \sum_(t <- S) lost_prob d D (one_each m n) l t = 1,
    \sum_(t <- S) `|spread_prob m d D n l t - lost_prob d D (one_each m n) l t| <= 2%:R * (1 - (n ^_ l)%:R / n%:R ^+ l)
    & 1 - (n ^_ l)%:R / n%:R ^+ l <= (l * l.-1)%:R / (2 * n)%:R :> R].
Proof. exact C71_fixed_accuracy_lemma. Qed.
Print Assumptions C71_fixed_accuracy.

(* C71: for a network without losses the exact laws are those computed by the exact calculators *)
Theorem C71_lossless :
  forall (R : rcfType) (m : nat) (U : seq (seq (ComplexField.complex_numFieldType R))) (s : seq nat) (t : seq nat),
  unitary m U ->
  dilation m 0 U U /\
  (forall l, (sumn t <= l)%N -> lost_prob 0 U s l t = if sumn t == l then fixed_loss_prob U s t else 0) /\
  (forall eta, (sumn t <= sumn s)%N -> lost_uniform 0 U s eta t = uniform_loss_prob U s eta t).
Proof. exact C71_lossless_lemma. Qed.
Print Assumptions C71_lossless.

(* C71: for the identity network the distance is exactly this; the approximation is not exact for any l > 1 *)
Theorem C71_bound_attained :
  forall (R : rcfType) (m n l : nat) (I : seq (seq (ComplexField.complex_numFieldType R))),
  is_square m I -> (forall i j : nat, (i < m)%N -> (j < m)%N -> ent I i j = (i == j)%:R) -> (0 < n <= m)%N -> (l <= n)%N ->
  exists S, [/\ uniq S, S =i [pred t | (size t == m) && (sumn t <= l)%N]
    & \sum_(t <- S) `|spread_prob m 0 I n l t - lost_prob 0 I (one_each m n) l t| = 2%:R * (1 - (n ^_ l)%:R / n%:R ^+ l)].
Proof. exact C71_bound_attained_lemma. Qed.
Print Assumptions C71_bound_attained.

(* C71: with uniform losses twice the total variation distance is at most (n-1) eta^2 *)
Theorem C71_uniform_accuracy :
  forall (R : rcfType) (m d n : nat) (M D : seq (seq (ComplexField.complex_numFieldType R))) (eta : R),
  dilation m d M D -> (0 < n <= m)%N -> 0 <= eta <= 1 ->
  (forall t, 0 <= spread_uniform m d D n eta t /\ 0 <= lost_uniform d D (one_each m n) eta t) /\
  exists S, [/\ uniq S, S =i [pred t | (size t == m) && (sumn t <= n)%N],
    \sum_(t <- S) spread_uniform m d D n eta t = 1 /\ \sum_(t <- S) lost_uniform d D (one_each m n) eta t = 1
    & \sum_(t <- S) `|spread_uniform m d D n eta t - lost_uniform d D (one_each m n) eta t| <= n.-1%:R * eta ^+ 2].
Proof. exact C71_uniform_accuracy_lemma. Qed.
Print Assumptions C71_uniform_accuracy.

(* C71: k samples of the approximating strategy and k samples of the exact strategy (Clifford & Clifford, version B, with uniform losses) pass any test with probabilities which differ by at most k (n-1) eta^2 / 2 *)
Theorem C71_close_to_exact_sampler :
  forall (R : rcfType) (svd : seq (seq (ComplexField.complex_numFieldType R)) -> res (seq (seq (ComplexField.complex_numFieldType R)) * seq R * seq (seq (ComplexField.complex_numFieldType R)))) (cis : R -> (ComplexField.complex_numFieldType R)) (m n fuel : nat) (U : seq (seq (ComplexField.complex_numFieldType R))) (eta : R) (k : nat) (x : ugccb R) (f : seq (seq nat) -> R),
  Num.archimedean_axiom R -> svd_ok svd -> cis_ok cis -> cis_lipschitz cis -> unitary m U -> (0 < n <= m)%N -> 0 <= eta <= 1 ->
  (\prod_(y <- one_each m n) y.+1 <= fuel)%N -> calc_matrix (b_calc (ub_b x)) = U -> ub_eta x = eta ->
  (forall L, 0 <= f L <= 1) ->
  exists v v', [/\ lim_exp (on_ok (fun y => f y.1)) (uniform_simulate svd cis (@np_rand R) (one_each m n) k (Uniform U m eta)) v,
      has_exp (on_ok (fun y => f y.1)) (ugccb_simulate fuel (one_each m n) k x) v'
    & `|v - v'| <= k%:R * (n.-1%:R * eta ^+ 2 / 2%:R)].
Proof. exact C71_close_to_exact_sampler_lemma. Qed.
Print Assumptions C71_close_to_exact_sampler.

(* C71: the hypotheses on the numbers and the phases hold for the real numbers of the standard library and exp(2 pi i x) *)
Theorem C71_reals :
  Num.archimedean_axiom R_rcfType /\ cis_ok real_cis /\ cis_lipschitz real_cis.
Proof. exact C71_reals_lemma. Qed.
Print Assumptions C71_reals.
