(* Final forms of the lemmas behind the property theorems: C83 (networks with losses, backward stable decompositions). *)
From mathcomp Require Import all_ssreflect all_algebra complex ring zify.
From Verif Require Import Base SpecStates Combi SpecPerm SpecBS ModelStates ModelPerm ModelDist ProofDist1 SpecProb ModelGcc ModelGccB ModelNet SpecNet ModelFloat ModelFloatGcc ModelFloatGccB ModelFloatNet SpecFloat SpecFloatGcc SpecFloatSub SpecFloatGccB SpecFloatNet ModelBobs SpecBobs ModelFloatBobs SpecFloatBobs ProofGccB2 ProofFloatNet5 ProofSample1 ProofFloat ProofFloatNet3 ProofFloatNet4 ProofFloatBobs7.
Set Implicit Arguments.
Unset Strict Implicit.
Unset Printing Implicit Defensive.
Import Order.TTheory GRing.Theory Num.Theory.
Local Open Scope ring_scope.
Local Open Scope py_scope.

Lemma C83_backward_stable_lemma :
  forall (R : rcfType) (u d w e : R) (B : arith R) (f_sqrt : R -> R) (f_dot : seq (ComplexField.complex_numFieldType R) -> seq (ComplexField.complex_numFieldType R) -> (ComplexField.complex_numFieldType R))
    (svd : (seq (seq (ComplexField.complex_numFieldType R))) -> res ((seq (seq (ComplexField.complex_numFieldType R))) * seq R * (seq (seq (ComplexField.complex_numFieldType R))))) (m : nat) (M M0 : (seq (seq (ComplexField.complex_numFieldType R)))),
  0 <= u -> 0 <= d -> 0 <= w -> 0 <= e -> accurate u B -> accurate_sqrt u f_sqrt -> accurate_dot (u%:C)%C f_dot ->
  (0 < m)%N -> backward_svd svd m w d -> is_square m M -> subunitary m M0 -> close m e M M0 ->
  exists E E0 M1 : (seq (seq (ComplexField.complex_numFieldType R))), [/\ fl_prepare_expanded B f_sqrt f_dot svd M = Ok E, is_square (m + m) E,
    subunitary m M1 /\ close m (e + (w + m%:R * (m%:R * (e + w)))) M0 M1, dilation m m M1 E0 & close (m + m) (expand_error u (d + m%:R * (e + w)) m) E E0].
Proof.
move=> R u d w e B f_sqrt f_dot svd m M M0 u0 d0 w0 e0 aB asq aD m0 bs sq su cl.
have [V [s [U [M1 [eM ns su1 c1]]]]] := svd_stable bs m0 w0 d0 e0 sq su cl.
have d1 : 0 <= (d + m%:R * (e + w)) by rewrite addr_ge0 ?mulr_ge0 ?ler0n ?addr_ge0.
have [E [E0 [eE sE _ dE cE]]] := fl_prepare_ok u0 d1 aB asq aD m0 eM ns su1.
exists E, E0, M1; split=> //; split=> //.
by apply: close_trans c1 => i j il jl; rewrite distrC; exact: cl.
Qed.

Lemma C83_backward_sampler_lemma :
  forall (R : rcfType) (u d w e : R) (B : arith R) (f_sqrt : R -> R) (f_dot : seq (ComplexField.complex_numFieldType R) -> seq (ComplexField.complex_numFieldType R) -> (ComplexField.complex_numFieldType R))
    (svd : (seq (seq (ComplexField.complex_numFieldType R))) -> res ((seq (seq (ComplexField.complex_numFieldType R))) * seq R * (seq (seq (ComplexField.complex_numFieldType R))))) (m : nat) (M M0 : (seq (seq (ComplexField.complex_numFieldType R))))
    (A : arith (ComplexField.complex_numFieldType R)) (f_abs : (ComplexField.complex_numFieldType R) -> R) (f_sum f_check : seq R -> R) (f_search : R -> seq R -> nat) (fuel N : nat)
    (t : seq nat) (k : nat) (b : gccb R) (f : seq (seq nat) -> R) (dd : nat) (D : (seq (seq (ComplexField.complex_numFieldType R)))),
  0 <= u -> 0 <= d -> 0 <= w -> 0 <= e -> accurate u B -> accurate_sqrt u f_sqrt -> accurate_dot (u%:C)%C f_dot ->
  (0 < m)%N -> backward_svd svd m w d -> is_square m M -> subunitary m M0 -> close m e M M0 ->
  accurate (u%:C)%C A -> (forall z, `|f_abs z - py_abs z| <= u * py_abs z) ->
  accurate_sum u f_sum -> accurate_sum u f_check -> right_search f_search -> (0 < N)%N ->
  size t = m -> (code_number t <= fuel)%N -> (9 * (m + m) + 4)%:R * u <= (2%:R ^+ 27)^-1 ->
  fl_prepare_expanded B f_sqrt f_dot svd M = Ok (calc_matrix (b_calc b)) -> dilation m dd M0 D -> (forall L, 0 <= f L <= 1) ->
  exists v, has_exp (on_ok (fun z => f z.1)) (fl_lossy_net_simulate B A f_abs f_sum f_check f_search fuel N t k b) v /\
    `|v - iid_exp (lcomps m (sumn t)) (traced_prob dd D t) k f| <=
      k%:R * (gccb_error u (expand_error u (d + m%:R * (e + w)) m) N (m + m) (t ++ nseq m 0%N) (sumn t) + network_error (e + (w + m%:R * (m%:R * (e + w)))) m t).
Proof.
move=> R u d w e B f_sqrt f_dot svd m M M0 A f_abs f_sum f_check f_search fuel N t k b f dd D u0 d0 w0 e0 aB asq aD m0 bs sq su cl aA ab as_ ac sr N0 st fu small eb dD f01.
have [V [s [U [M1 [eM ns su1 c1]]]]] := svd_stable bs m0 w0 d0 e0 sq su cl.
have d1 : 0 <= (d + m%:R * (e + w)) by rewrite addr_ge0 ?mulr_ge0 ?ler0n ?addr_ge0.
have c2 : close m (e + (w + m%:R * (m%:R * (e + w)))) M0 M1 by apply: close_trans c1 => i j il jl; rewrite distrC; exact: cl.
have ew0 : 0 <= e + (w + m%:R * (m%:R * (e + w))) by rewrite !(addr_ge0, mulr_ge0, ler0n).
have [E [E0 [_ _ _ dE _]]] := fl_prepare_ok u0 d1 aB asq aD m0 eM ns su1.
have [v [h _ er]] := fl_lossy_net_exp u0 d1 aB asq aD m0 eM ns su1 aA ab as_ ac sr N0 st fu small k f01 eb dE.
exists v; split=> //; apply: le_trans (ler_dist_add (iid_exp (lcomps m (sumn t)) (traced_prob m E0 t) k f) _ _) _.
rewrite mulrDr; apply: ler_add => //; rewrite distrC.
exact: (traced_iid k m0 ew0 su su1 c2 dD dE st f01).
Qed.
