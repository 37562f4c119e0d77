(* Property theorems: C72 (the strategy with approximated modes and random phases).  Only statements; proofs elsewhere. *)
From mathcomp Require Import all_ssreflect all_algebra complex ring zify.
From Verif Require Import Base SpecStates Combi SpecPerm SpecBS ModelStates ModelPerm SpecProb ModelGcc ModelGccB ModelNet SpecNet SpecGcc ModelBobs SpecBobs SpecLim SpecBlim LemBlim.
Set Implicit Arguments.
Unset Strict Implicit.
Unset Printing Implicit Defensive.
Import Order.TTheory GRing.Theory Num.Theory.
Local Open Scope ring_scope.
Local Open Scope py_scope.

(* C72: the law of the samples for independent uniform phases.  The p particles of the k approximated modes are put independently and uniformly in these modes, as indistinguishable ones; the particles r of the other modes stay there; then come the losses and the network M' (M itself: C43_effective_matrix), with its dilation D *)
Theorem C72_law :
  forall (R : rcfType) (svd : seq (seq (ComplexField.complex_numFieldType R)) -> res (seq (seq (ComplexField.complex_numFieldType R)) * seq R * seq (seq (ComplexField.complex_numFieldType R)))) (cis : R -> (ComplexField.complex_numFieldType R)) (m : nat) (M : seq (seq (ComplexField.complex_numFieldType R))) (fuel : nat) (s : seq nat) (x : bobs R) (c : int)
    (e : nat) (D M' : seq (seq (ComplexField.complex_numFieldType R))),
  Num.archimedean_axiom R -> svd_ok svd -> cis_ok cis -> cis_lipschitz cis -> (0 < m)%N -> subunitary m M -> (exists i j, [/\ (i < m)%N, (j < m)%N & ent M i j != 0]) ->
  size s = m -> bobs_of svd m M x -> (0 < bo_threads x)%N -> (0 < bo_modes x)%N ->
  let k := bo_modes x in let p := (bo_particles x + sumn (take k s))%N in
  (forall s', s' \in approx_inputs k p s -> (\prod_(y <- s') y.+1 <= fuel)%N) ->
  (1 <= c)%R ->
  (forall i j, (i < m)%N -> (j < m)%N ->
     ent M' i j = (Num.sqrt (1 - kept_losses (bo_losses x)))%:C%C * ent (bo_matrix x) i j) ->
  dilation m e M' D ->
  lim_iid_samples (bobs_simulate svd cis (@np_rand R) fuel s c x) (bo_threads x * (`|c| %/ bo_threads x).+1)
    [pred t | (size t == m) && (sumn t <= approx_total k p s)%N]
    (spread_rest e D k p (drop k s)).
Proof. exact C72_law_lemma. Qed.
Print Assumptions C72_law.

(* C72: this is a probability distribution *)
Theorem C72_distribution :
  forall (R : rcfType) (m e k p : nat) (M D : seq (seq (ComplexField.complex_numFieldType R))) (r : seq nat),
  dilation m e M D -> (0 < k <= m)%N -> size r = (m - k)%N ->
  (forall t, 0 <= spread_rest e D k p r t) /\
  exists S, [/\ uniq S, S =i [pred t | (size t == m) && (sumn t <= p + sumn r)%N] & \sum_(t <- S) spread_rest e D k p r t = 1].
Proof. exact C72_distribution_lemma. Qed.
Print Assumptions C72_distribution.

(* C72: one particle in each approximated mode, any particles r in the other modes, and a network M which is sqrt(eta) times a sub-unitary one: twice the total variation distance to the exact law is at most (k-1) eta^2 *)
Theorem C72_accuracy :
  forall (R : rcfType) (m d e k : nat) (N DN M D : seq (seq (ComplexField.complex_numFieldType R))) (eta : R) (r : seq nat),
  dilation m d N DN -> dilation m e M D -> 0 <= eta <= 1 ->
  (forall i j : nat, (i < m)%N -> (j < m)%N -> ent M i j = (Num.sqrt eta)%:C%C * ent N i j) ->
  (0 < k <= m)%N -> size r = (m - k)%N ->
  exists S, [/\ uniq S, S =i [pred t | (size t == m) && (sumn t <= k + sumn r)%N]
    & \sum_(t <- S) `|spread_rest e D k k r t - traced_prob e D (nseq k 1%N ++ r) t| <= k.-1%:R * eta ^+ 2].
Proof. exact C72_accuracy_lemma. Qed.
Print Assumptions C72_accuracy.

(* C72: the first call, one particle in each approximated mode: the samples, and as many samples of the strategy for lossy networks, pass any test with probabilities which differ by at most (k-1) eta^2 / 2 per sample, where eta is the largest transmissivity of the network *)
Theorem C72_close_to_exact_sampler :
  forall (R : rcfType) (svd : seq (seq (ComplexField.complex_numFieldType R)) -> res (seq (seq (ComplexField.complex_numFieldType R)) * seq R * seq (seq (ComplexField.complex_numFieldType R)))) (cis : R -> (ComplexField.complex_numFieldType R)) (m : nat) (M : seq (seq (ComplexField.complex_numFieldType R))) (fuel : nat) (s : seq nat) (x : bobs R) (c : int) (b : gccb R) (f : seq (seq nat) -> R),
  Num.archimedean_axiom R -> svd_ok svd -> cis_ok cis -> cis_lipschitz cis -> (0 < m)%N -> subunitary m M -> (exists i j, [/\ (i < m)%N, (j < m)%N & ent M i j != 0]) ->
  size s = m -> bobs_of svd m M x -> (0 < bo_threads x)%N -> (0 < bo_modes x)%N -> bo_particles x = 0%N ->
  bo_losses x = 0 \/ (10%:R ^+ 8)^-1 < bo_losses x ->
  let k := bo_modes x in let n := (bo_threads x * (`|c| %/ bo_threads x).+1)%N in
  take k s = nseq k 1%N ->
  (forall s', s' \in s :: approx_inputs k k s -> (\prod_(y <- s') y.+1 <= fuel)%N) ->
  (1 <= c)%R -> prepare_expanded svd M = Ok (calc_matrix (b_calc b)) -> (forall L, 0 <= f L <= 1) ->
  exists v v', [/\ lim_exp (on_ok (fun y => f y.1)) (bobs_simulate svd cis (@np_rand R) fuel s c x) v,
      has_exp (on_ok (fun y => f y.1)) (lossy_net_simulate fuel s n b) v'
    & `|v - v'| <= n%:R * (k.-1%:R * (1 - bo_losses x) ^+ 2 / 2%:R)].
Proof. exact C72_close_to_exact_sampler_lemma. Qed.
Print Assumptions C72_close_to_exact_sampler.

(* C72: for the identity network with transmissivity eta, the distance for the input with the particles a in the approximated modes is at least this *)
Theorem C72_lower_bound :
  forall (R : rcfType) (m e k : nat) (M D : seq (seq (ComplexField.complex_numFieldType R))) (eta : R) (a r : seq nat),
  dilation m e M D -> 0 <= eta <= 1 ->
  (forall i j : nat, (i < m)%N -> (j < m)%N -> ent M i j = (i == j)%:R * (Num.sqrt eta)%:C%C) ->
  (0 < k <= m)%N -> size a = k -> size r = (m - k)%N ->
  let p := sumn a in
  exists S, [/\ uniq S, S =i [pred t | (size t == m) && (sumn t <= p + sumn r)%N]
    & 2%:R * eta ^+ (p + sumn r) * (1 - p`!%:R / (factprod a)%:R / k%:R ^+ p) <=
      \sum_(t <- S) `|spread_rest e D k p r t - traced_prob e D (a ++ r) t|].
Proof. exact C72_lower_bound_lemma. Qed.
Print Assumptions C72_lower_bound.

(* C72: the accuracy (k-1) eta^2 is not reached for other inputs: two modes, both approximated, one particle in the first mode, and two beam splitters of transmissivity eta as the network *)
Theorem C72_other_inputs_refuted :
  forall (R : rcfType) (eta : R), 0 < eta < 1 ->
  exists (M D : seq (seq (ComplexField.complex_numFieldType R))) (e : nat) (S : seq (seq nat)),
  [/\ dilation 2 e M D, forall i j : nat, (i < 2)%N -> (j < 2)%N -> ent M i j = (i == j)%:R * (Num.sqrt eta)%:C%C,
    uniq S, S =i [pred t | (size t == 2)%N && (sumn t <= 1)%N]
    & 2.-1%:R * eta ^+ 2 < \sum_(t <- S) `|spread_rest e D 2 1 [::] t - traced_prob e D [:: 1; 0]%N t|].
Proof. exact C72_other_inputs_refuted_lemma. Qed.
Print Assumptions C72_other_inputs_refuted.
