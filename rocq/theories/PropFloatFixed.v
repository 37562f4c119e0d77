(* Property theorems: C85 (rounding errors of the strategies with independent particles).  Only statements; proofs elsewhere. *)
From mathcomp Require Import all_ssreflect all_algebra complex ring zify.
From Verif Require Import Base SpecStates Combi SpecPerm SpecBS ModelStates ModelPerm ModelDist SpecProb ModelGcc ModelGccB ModelNet SpecNet ModelFixed SpecFixed ModelFloat ModelFloatGcc ModelFloatGccB ModelFloatNet ModelFloatFixed SpecFloat SpecFloatGcc SpecFloatSub SpecFloatGccB SpecFloatNet SpecFloatFixed ProofGccB2 ProofFixed1 ProofFixed2 LemFloatFixed.
Set Implicit Arguments.
Unset Strict Implicit.
Unset Printing Implicit Defensive.
Import Order.TTheory GRing.Theory Num.Theory.
Local Open Scope ring_scope.
Local Open Scope py_scope.

(* C85: with exact operations the pieces of both strategies are those of the model with exact numbers *)
Theorem C85_exact_arithmetic :
  forall (R : rcfType) (svd : (seq (seq (ComplexField.complex_numFieldType R))) -> res ((seq (seq (ComplexField.complex_numFieldType R))) * seq R * (seq (seq (ComplexField.complex_numFieldType R))))) (cis : R -> (ComplexField.complex_numFieldType R)) (rand : nat -> rprog R (res (seq R))) (M : (seq (seq (ComplexField.complex_numFieldType R)))) (l m n : nat)
    (net : option (network R)) (net' : network R) (v : seq (ComplexField.complex_numFieldType R)) (ps : seq (option R)) (x eta : R) (out : seq nat),
  let A := exact_arith (ComplexField.complex_numFieldType R) in let B := exact_arith R in let dot := @exact_dot (ComplexField.complex_numFieldType R) in
  [/\ fl_new_fixed B Num.sqrt dot svd M l m net = new_fixed svd M l m net,
      fl_prepare_state A B Num.sqrt cis rand m n = prepare_state cis rand m n,
      fl_network_simulate dot net' v = network_simulate net' v,
      fl_probabilities B n v = probabilities n v
    & fl_place B ps x out = place ps x out /\ fl_separable_weights B eta n = separable_weights eta n].
Proof. exact C85_exact_arithmetic_lemma. Qed.
Print Assumptions C85_exact_arithmetic.

(* C85: the network without losses, whose stored matrix is up to eps the matrix M0 *)
Theorem C85_lossless_network :
  forall (R : rcfType) (u eps : R) (f_dot : seq (ComplexField.complex_numFieldType R) -> seq (ComplexField.complex_numFieldType R) -> (ComplexField.complex_numFieldType R)) (m : nat) (M M0 : (seq (seq (ComplexField.complex_numFieldType R)))),
  0 <= u -> 0 <= eps -> accurate_dot (u%:C)%C f_dot -> is_square m M -> subunitary m M0 -> close m eps M M0 ->
  accurate_network f_dot m M0 (lossless_error u eps m) (LosslessNetwork M).
Proof. exact C85_lossless_network_lemma. Qed.
Print Assumptions C85_lossless_network.

(* C85: an object built without a network gets one with losses, applying M0 up to lossy_error; the decomposition returned is up to d that of M0 *)
Theorem C85_new_object :
  forall (R : rcfType) (u d : R) (B : arith R) (f_sqrt : R -> R) (f_dot : seq (ComplexField.complex_numFieldType R) -> seq (ComplexField.complex_numFieldType R) -> (ComplexField.complex_numFieldType R)) (svd : (seq (seq (ComplexField.complex_numFieldType R))) -> res ((seq (seq (ComplexField.complex_numFieldType R))) * seq R * (seq (seq (ComplexField.complex_numFieldType R))))) (m : nat) (M M0 V U : (seq (seq (ComplexField.complex_numFieldType R)))) (s : seq R) (l : nat),
  0 <= u -> 0 <= d -> accurate u B -> accurate_sqrt u f_sqrt -> accurate_dot (u%:C)%C f_dot ->
  (0 < m)%N -> svd M = Ok (V, s, U) -> near_svd m d M0 V s U -> subunitary m M0 ->
  exists2 y, fl_new_fixed B f_sqrt f_dot svd M l m None = Ok y &
  [/\ fx_left y = l, fx_modes y = m & accurate_network f_dot m M0 (lossy_error u d m) (fx_net y)].
Proof. exact C85_new_object_lemma. Qed.
Print Assumptions C85_new_object.

(* C85: the probabilities of the modes computed for n > 0 particles with the phases d are nonnegative and up to intensity_error those of a particle spread over the first n modes behind M0 *)
Theorem C85_probabilities :
  forall (R : rcfType) (u c nu : R) (A : arith (ComplexField.complex_numFieldType R)) (B : arith R) (f_sqrt : R -> R) (f_dot : seq (ComplexField.complex_numFieldType R) -> seq (ComplexField.complex_numFieldType R) -> (ComplexField.complex_numFieldType R)) (cis f_cis : R -> (ComplexField.complex_numFieldType R)) (rand : nat -> rprog R (res (seq R))) (m : nat) (M0 : (seq (seq (ComplexField.complex_numFieldType R)))) (net : network R) (n : nat) (d : seq R),
  0 <= u -> u <= 8%:R^-1 -> 0 <= c -> 0 <= nu -> accurate (u%:C)%C A -> accurate u B -> accurate_sqrt u f_sqrt ->
  cis_ok cis -> accurate_cis c cis f_cis ->
  (0 < m)%N -> subunitary m M0 -> accurate_network f_dot m M0 nu net -> (0 < n)%N ->
  always (fun r => r = Ok d) (rand m) ->
  always (fun r => exists v ev p, [/\ r = Ok v, fl_network_simulate f_dot net v = Ok ev,
    fl_probabilities B n ev = [seq Some x | x <- p], size p = m
    & forall i : nat, (i < m)%N -> 0 <= p`_i /\ `|p`_i - (smeared cis m M0 n d)`_i| <= intensity_error u c nu m])
    (fl_prepare_state A B f_sqrt f_cis rand m n).
Proof. exact C85_probabilities_lemma. Qed.
Print Assumptions C85_probabilities.

Example C85_example (R : rcfType) (N m l n : nat) : (* without rounding only the resolution of the random numbers is left *)
  [/\ lossless_error (0 : R) 0 m = 0, intensity_error (0 : R) 0 0 m = 0,
      fixed_error (0 : R) 0 0 N m l = l%:R * ((m + m.+1)%:R / N%:R)
    & uniform_error (0 : R) 0 0 N m n = (n.+1 + n.+2)%:R / N%:R + n%:R * ((m + m.+1)%:R / N%:R)].
Proof.
have i0 : intensity_error (0 : R) 0 0 m = 0.
  by rewrite /intensity_error /amplitude_error !addr0 !expr1n !mulr1 subrr mulr0 addr0 expr1n mulr1 subrr.
have f0 k : fixed_error (0 : R) 0 0 N m k = k%:R * ((m + m.+1)%:R / N%:R).
  by rewrite /fixed_error /place_error i0 mulr0 !addr0 expr1n mulr1 subrr add0r.
split=> //; first by rewrite /lossless_error !addr0 expr1n mulr1 subrr.
by rewrite /uniform_error f0 /choice_error addr0 expr1n subrr add0r.
Qed.

(* C85: l particles are placed one after another with computed probabilities p that are up to e the probabilities q.  Expectations of any test differ by at most l place_error from those of l independent particles *)
Theorem C85_placing :
  forall (R : rcfType) (u e : R) (B : arith R) (N : nat) (p q : seq R) (l : nat) (f : seq nat -> R),
  0 <= u -> accurate u B -> (0 < N)%N -> all (fun x => 0 <= x) q -> \sum_(x <- q) x <= 1 ->
  all (fun x => 0 <= x) p -> size q = size p -> (forall i : nat, (i < size p)%N -> `|p`_i - q`_i| <= e) -> (0 < size p)%N ->
  (forall t, 0 <= f t <= 1) ->
  exists v, has_exp (on_ok f) (fl_place_all B N [seq Some x | x <- p] l (nseq (size p) 0%N)) v /\
    `|v - \sum_(t <- lcomps (size p) l) multinomial_prob l q t * f t| <= l%:R * place_error u e N (size p).
Proof. exact C85_placing_lemma. Qed.
Print Assumptions C85_placing.

(* C85: k samples of the strategy with a fixed number l of particles left; the phases have the values S with the probabilities W.  Expectations of any test f (0 if an error is raised) differ from those of k exact independent samples by at most k fixed_error *)
Theorem C85_fixed_sampler :
  forall (R : rcfType) (u c nu : R) (A : arith (ComplexField.complex_numFieldType R)) (B : arith R) (f_sqrt : R -> R) (f_dot : seq (ComplexField.complex_numFieldType R) -> seq (ComplexField.complex_numFieldType R) -> (ComplexField.complex_numFieldType R)) (cis f_cis : R -> (ComplexField.complex_numFieldType R)) (m : nat) (M0 : (seq (seq (ComplexField.complex_numFieldType R)))) (N l : nat) (x : fixed R) (s : seq nat)
    (rand : nat -> rprog R (res (seq R))) (S : seq (seq R)) (W : seq R -> R) (k : nat) (f : seq (seq nat) -> R),
  0 <= u -> u <= 8%:R^-1 -> 0 <= c -> 0 <= nu -> accurate (u%:C)%C A -> accurate u B -> accurate_sqrt u f_sqrt ->
  cis_ok cis -> accurate_cis c cis f_cis ->
  (0 < m)%N -> subunitary m M0 -> (0 < N)%N -> fx_left x = l -> fx_modes x = m -> accurate_network f_dot m M0 nu (fx_net x) ->
  always (fun r => exists2 d, r = Ok d & d \in S) (rand m) ->
  (forall f, has_exp (on_ok f) (rand m) (\sum_(d <- S) W d * f d)) ->
  (0 < sumn s)%N || (l == 0)%N -> (forall L, 0 <= f L <= 1) ->
  exists v, has_exp (on_ok (fun y => f y.1)) (fl_fixed_simulate A B f_sqrt f_dot f_cis rand N s k x) v /\
    `|v - iid_exp (lcomps m l) (fixed_law cis m M0 (sumn s) l S W) k f| <= k%:R * fixed_error u c nu N m l.
Proof. exact C85_fixed_sampler_lemma. Qed.
Print Assumptions C85_fixed_sampler.

(* C85: however the random numbers fall, no error is raised: k outcomes on m modes with at most l particles; without particles in the input all l are put in the first mode *)
Theorem C85_fixed_always :
  forall (R : rcfType) (nu : R) (A : arith (ComplexField.complex_numFieldType R)) (B : arith R) (f_sqrt : R -> R) (f_dot : seq (ComplexField.complex_numFieldType R) -> seq (ComplexField.complex_numFieldType R) -> (ComplexField.complex_numFieldType R)) (f_cis : R -> (ComplexField.complex_numFieldType R)) (m : nat) (M0 : (seq (seq (ComplexField.complex_numFieldType R)))) (N l : nat)
    (x : fixed R) (s : seq nat) (rand : nat -> rprog R (res (seq R))) (k : nat),
  (0 < m)%N -> fx_left x = l -> fx_modes x = m -> accurate_network f_dot m M0 nu (fx_net x) ->
  always (fun r => exists d, r = Ok d) (rand m) ->
  always (fun y => exists L, [/\ y = Ok (L, x), size L = k
      & forall t, t \in L -> [/\ size t = m, (sumn t <= l)%N & sumn s = 0%N -> t = l :: nseq m.-1 0%N]])
    (fl_fixed_simulate A B f_sqrt f_dot f_cis rand N s k x).
Proof. exact C85_fixed_always_lemma. Qed.
Print Assumptions C85_fixed_always.

(* C85: k samples of the strategy with a binomially distributed number of particles left, chosen with the computed weights *)
Theorem C85_uniform_sampler :
  forall (R : rcfType) (u c d : R) (A : arith (ComplexField.complex_numFieldType R)) (B : arith R) (f_sqrt : R -> R) (f_dot : seq (ComplexField.complex_numFieldType R) -> seq (ComplexField.complex_numFieldType R) -> (ComplexField.complex_numFieldType R)) (cis f_cis : R -> (ComplexField.complex_numFieldType R))
    (svd : (seq (seq (ComplexField.complex_numFieldType R))) -> res ((seq (seq (ComplexField.complex_numFieldType R))) * seq R * (seq (seq (ComplexField.complex_numFieldType R))))) (f_check : seq R -> R) (f_search : R -> seq R -> nat) (m : nat) (M M0 V U : (seq (seq (ComplexField.complex_numFieldType R)))) (sv : seq R)
    (N : nat) (s : seq nat) (rand : nat -> rprog R (res (seq R))) (eta : R) (S : seq (seq R)) (W : seq R -> R) (k : nat) (f : seq (seq nat) -> R),
  0 <= u -> 0 <= c -> 0 <= d -> accurate (u%:C)%C A -> accurate u B -> accurate_sqrt u f_sqrt -> accurate_dot (u%:C)%C f_dot ->
  accurate_sum u f_check -> right_search f_search -> cis_ok cis -> accurate_cis c cis f_cis ->
  (0 < m)%N -> svd M = Ok (V, sv, U) -> near_svd m d M0 V sv U -> subunitary m M0 -> (0 < N)%N -> 0 <= eta <= 1 ->
  (9 * (sumn s).+1 + 4)%:R * u <= (2%:R ^+ 27)^-1 ->
  always (fun r => exists2 d, r = Ok d & d \in S) (rand m) ->
  (forall f, has_exp (on_ok f) (rand m) (\sum_(d <- S) W d * f d)) ->
  (forall L, 0 <= f L <= 1) ->
  exists v, has_exp (on_ok (fun y => f y.1)) (fl_uniform_simulate A B f_sqrt f_dot svd f_cis rand N f_check f_search s k (Uniform M m eta)) v /\
    `|v - iid_exp (lcomps m (sumn s)) (uniform_law cis m M0 (sumn s) eta S W) k f| <=
      k%:R * uniform_error u c (lossy_error u d m) N m (sumn s).
Proof. exact C85_uniform_sampler_lemma. Qed.
Print Assumptions C85_uniform_sampler.

(* C85: however the random numbers fall, the computed weights pass the check of the choice and k outcomes on m modes are returned; rounding of the cumulated weights can at most add one particle *)
Theorem C85_uniform_always :
  forall (R : rcfType) (u c d : R) (A : arith (ComplexField.complex_numFieldType R)) (B : arith R) (f_sqrt : R -> R) (f_dot : seq (ComplexField.complex_numFieldType R) -> seq (ComplexField.complex_numFieldType R) -> (ComplexField.complex_numFieldType R)) (cis f_cis : R -> (ComplexField.complex_numFieldType R))
    (svd : (seq (seq (ComplexField.complex_numFieldType R))) -> res ((seq (seq (ComplexField.complex_numFieldType R))) * seq R * (seq (seq (ComplexField.complex_numFieldType R))))) (f_check : seq R -> R) (f_search : R -> seq R -> nat) (m : nat) (M M0 V U : (seq (seq (ComplexField.complex_numFieldType R)))) (sv : seq R)
    (N : nat) (s : seq nat) (rand : nat -> rprog R (res (seq R))) (eta : R) (k : nat),
  0 <= u -> 0 <= c -> 0 <= d -> accurate (u%:C)%C A -> accurate u B -> accurate_sqrt u f_sqrt -> accurate_dot (u%:C)%C f_dot ->
  accurate_sum u f_check -> right_search f_search -> cis_ok cis -> accurate_cis c cis f_cis ->
  (0 < m)%N -> svd M = Ok (V, sv, U) -> near_svd m d M0 V sv U -> subunitary m M0 -> (0 < N)%N -> 0 <= eta <= 1 ->
  (9 * (sumn s).+1 + 4)%:R * u <= (2%:R ^+ 27)^-1 ->
  always (fun r => exists d, r = Ok d) (rand m) ->
  always (fun y => exists L, [/\ y = Ok (L, Uniform M m eta), size L = k & forall t, t \in L -> size t = m /\ (sumn t <= (sumn s).+1)%N])
    (fl_uniform_simulate A B f_sqrt f_dot svd f_cis rand N f_check f_search s k (Uniform M m eta)).
Proof. exact C85_uniform_always_lemma. Qed.
Print Assumptions C85_uniform_always.
