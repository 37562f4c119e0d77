(* Property theorems: C83 (networks with losses, backward stable decompositions).  Only statements; proofs elsewhere. *)
From mathcomp Require Import all_ssreflect all_algebra complex ring zify.
From Verif Require Import Base SpecStates Combi SpecPerm SpecBS ModelStates ModelPerm ModelDist ProofDist1 SpecProb ModelGcc ModelGccB ModelNet SpecNet ModelFloat ModelFloatGcc ModelFloatGccB ModelFloatNet SpecFloat SpecFloatGcc SpecFloatSub SpecFloatGccB SpecFloatNet ModelBobs SpecBobs ModelFloatBobs SpecFloatBobs ProofGccB2 ProofFloatNet5 LemNet ProofFloatBobs7 LemFloatNetSvd.
Set Implicit Arguments.
Unset Strict Implicit.
Unset Printing Implicit Defensive.
Import Order.TTheory GRing.Theory Num.Theory.
Local Open Scope ring_scope.
Local Open Scope py_scope.

(* C83: a matrix M within e of a network M0 with losses, and a decomposition that is up to d one of a matrix within w of its argument.  The expanded matrix is computed, and is close to one completing a network within an explicit bound of M0 to a lossless one *)
Theorem C83_backward_stable :
  forall (R : rcfType) (u d w e : R) (B : arith R) (f_sqrt : R -> R) (f_dot : seq (ComplexField.complex_numFieldType R) -> seq (ComplexField.complex_numFieldType R) -> (ComplexField.complex_numFieldType R))
    (svd : (seq (seq (ComplexField.complex_numFieldType R))) -> res ((seq (seq (ComplexField.complex_numFieldType R))) * seq R * (seq (seq (ComplexField.complex_numFieldType R))))) (m : nat) (M M0 : (seq (seq (ComplexField.complex_numFieldType R)))),
  0 <= u -> 0 <= d -> 0 <= w -> 0 <= e -> accurate u B -> accurate_sqrt u f_sqrt -> accurate_dot (u%:C)%C f_dot ->
  (0 < m)%N -> backward_svd svd m w d -> is_square m M -> subunitary m M0 -> close m e M M0 ->
  exists E E0 M1 : (seq (seq (ComplexField.complex_numFieldType R))), [/\ fl_prepare_expanded B f_sqrt f_dot svd M = Ok E, is_square (m + m) E,
    subunitary m M1 /\ close m (e + (w + m%:R * (m%:R * (e + w)))) M0 M1, dilation m m M1 E0 & close (m + m) (expand_error u (d + m%:R * (e + w)) m) E E0].
Proof. exact C83_backward_stable_lemma. Qed.
Print Assumptions C83_backward_stable.

Example C83_example_stable (R : rcfType) : (* an exact decomposition is backward stable without errors *)
  exists svd, forall m, (0 < m)%N -> backward_svd (R := R) svd m 0 0.
Proof. by have [svd ok] := C35_svd_exists_lemma R; exists svd => m m0; exact: exact_backward. Qed.

(* C83: k samples for such a matrix M, compared with exact ones for the network M0 *)
Theorem C83_backward_sampler :
  forall (R : rcfType) (u d w e : R) (B : arith R) (f_sqrt : R -> R) (f_dot : seq (ComplexField.complex_numFieldType R) -> seq (ComplexField.complex_numFieldType R) -> (ComplexField.complex_numFieldType R))
    (svd : (seq (seq (ComplexField.complex_numFieldType R))) -> res ((seq (seq (ComplexField.complex_numFieldType R))) * seq R * (seq (seq (ComplexField.complex_numFieldType R))))) (m : nat) (M M0 : (seq (seq (ComplexField.complex_numFieldType R))))
    (A : arith (ComplexField.complex_numFieldType R)) (f_abs : (ComplexField.complex_numFieldType R) -> R) (f_sum f_check : seq R -> R) (f_search : R -> seq R -> nat) (fuel N : nat)
    (t : seq nat) (k : nat) (b : gccb R) (f : seq (seq nat) -> R) (dd : nat) (D : (seq (seq (ComplexField.complex_numFieldType R)))),
  0 <= u -> 0 <= d -> 0 <= w -> 0 <= e -> accurate u B -> accurate_sqrt u f_sqrt -> accurate_dot (u%:C)%C f_dot ->
  (0 < m)%N -> backward_svd svd m w d -> is_square m M -> subunitary m M0 -> close m e M M0 ->
  accurate (u%:C)%C A -> (forall z, `|f_abs z - py_abs z| <= u * py_abs z) ->
  accurate_sum u f_sum -> accurate_sum u f_check -> right_search f_search -> (0 < N)%N ->
  size t = m -> (code_number t <= fuel)%N -> (9 * (m + m) + 4)%:R * u <= (2%:R ^+ 27)^-1 ->
  fl_prepare_expanded B f_sqrt f_dot svd M = Ok (calc_matrix (b_calc b)) -> dilation m dd M0 D -> (forall L, 0 <= f L <= 1) ->
  exists v, has_exp (on_ok (fun z => f z.1)) (fl_lossy_net_simulate B A f_abs f_sum f_check f_search fuel N t k b) v /\
    `|v - iid_exp (lcomps m (sumn t)) (traced_prob dd D t) k f| <=
      k%:R * (gccb_error u (expand_error u (d + m%:R * (e + w)) m) N (m + m) (t ++ nseq m 0%N) (sumn t) + network_error (e + (w + m%:R * (m%:R * (e + w)))) m t).
Proof. exact C83_backward_sampler_lemma. Qed.
Print Assumptions C83_backward_sampler.
