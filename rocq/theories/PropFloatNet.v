(* Property theorems: C83 (rounding errors of networks with losses).  Only statements; proofs elsewhere. *)
From mathcomp Require Import all_ssreflect all_algebra complex ring zify.
From Verif Require Import Base SpecStates Combi SpecPerm SpecBS ModelStates ModelPerm ModelDist ProofDist1 SpecProb ModelGcc ModelGccB ModelNet SpecNet ModelFloat ModelFloatGcc ModelFloatGccB ModelFloatNet SpecFloat SpecFloatGcc SpecFloatSub SpecFloatGccB SpecFloatNet ProofGccB2 ProofFloatNet5 LemFloatNet.
Set Implicit Arguments.
Unset Strict Implicit.
Unset Printing Implicit Defensive.
Import Order.TTheory GRing.Theory Num.Theory.
Local Open Scope ring_scope.
Local Open Scope py_scope.

(* C83: with exact operations the expanded matrix, the transmissivities and the outputs of the networks are those of the model with exact numbers *)
Theorem C83_exact_arithmetic :
  forall (R : rcfType) (svd : (seq (seq (ComplexField.complex_numFieldType R))) -> res ((seq (seq (ComplexField.complex_numFieldType R))) * seq R * (seq (seq (ComplexField.complex_numFieldType R))))) (M E : (seq (seq (ComplexField.complex_numFieldType R)))) (v : seq (ComplexField.complex_numFieldType R)),
  let B := exact_arith R in
  [/\ fl_prepare_expanded B Num.sqrt (@exact_dot (ComplexField.complex_numFieldType R)) svd M = prepare_expanded svd M,
      fl_modes_transmissivities B svd M = modes_transmissivities svd M,
      fl_lossless_network (@exact_dot (ComplexField.complex_numFieldType R)) M v = lossless_network M v &
      fl_lossy_network_simulate (@exact_dot (ComplexField.complex_numFieldType R)) E v = lossy_network_simulate E v].
Proof. exact C83_exact_arithmetic_lemma. Qed.
Print Assumptions C83_exact_arithmetic.

(* C83: products rounded one by one and added up by any accurate sum are an accurate sum of products *)
Theorem C83_dot :
  forall (F : numFieldType) (u : F) (A : arith F) (f_sum : seq F -> F), 0 <= u -> accurate u A -> accurate_sum u f_sum ->
  accurate_dot u (fun x y => f_sum [seq f_mul A z.1 z.2 | z <- zip x y]).
Proof. exact C83_dot_lemma. Qed.
Print Assumptions C83_dot.

(* C83: the decomposition returned is up to d that of a network M0 with losses.  The matrix computed from it has in all entries the error expand_error with respect to a matrix E0 completing M0 to a lossless network; the entries of E0 are at most 1.  Losses are square roots of differences, which is why the error is of the order of the root of u and d *)
Theorem C83_expanded_matrix :
  forall (R : rcfType) (u d : R) (B : arith R) (f_sqrt : R -> R) (f_dot : seq (ComplexField.complex_numFieldType R) -> seq (ComplexField.complex_numFieldType R) -> (ComplexField.complex_numFieldType R))
    (svd : (seq (seq (ComplexField.complex_numFieldType R))) -> res ((seq (seq (ComplexField.complex_numFieldType R))) * seq R * (seq (seq (ComplexField.complex_numFieldType R))))) (m : nat) (M M0 V U : (seq (seq (ComplexField.complex_numFieldType R)))) (s : seq R),
  0 <= u -> 0 <= d -> accurate u B -> accurate_sqrt u f_sqrt -> accurate_dot (u%:C)%C f_dot ->
  (0 < m)%N -> svd M = Ok (V, s, U) -> near_svd m d M0 V s U -> subunitary m M0 ->
  exists E E0 : (seq (seq (ComplexField.complex_numFieldType R))), [/\ fl_prepare_expanded B f_sqrt f_dot svd M = Ok E, is_square (m + m) E,
    dilation m m M0 E0, close (m + m) (expand_error u d m) E E0 &
    forall i j : nat, (i < m + m)%N -> (j < m + m)%N -> `|ent E0 i j| <= 1].
Proof. exact C83_expanded_matrix_lemma. Qed.
Print Assumptions C83_expanded_matrix.

Example C83_example (R : rcfType) (m : nat) : (* without errors nothing is left of the bounds *)
  expand_error (0 : R) 0 m = 0 /\ forall s, network_error (0 : R) m s = 0.
Proof.
have p n : product_error (0 : R) n 0 0 = 0 by rewrite /product_error !addr0 !expr1n !mulr1 subrr mulr0.
split=> [|s]; last by rewrite /network_error addr0 expr1n subrr !mul0r.
rewrite /expand_error; have -> : loss_root_error (0 : R) 0 = 0.
  by rewrite /loss_root_error /loss_sv_error !addr0 !expr1n mulr1 subrr sqrtr0 addr0 mulr1 subrr.
by rewrite !p.
Qed.

(* C83: the root in the bound is needed: a singular value 1 computed with an error d gives the loss amplitude sqrt (2 d - d^2), although the exact one is 0 *)
Theorem C83_loss_cancellation :
  forall (R : rcfType) (d : R), 0 <= d <= 1 ->
  [/\ loss_expansion [:: (1 : R) ^+ 2] = [:: [:: 0]],
      fl_loss_expansion (exact_arith R) Num.sqrt [:: (1 - d) ^+ 2] = [:: [:: (Num.sqrt (2%:R * d - d ^+ 2))%:C%C]],
      Num.sqrt d <= Num.sqrt (2%:R * d - d ^+ 2) &
      Num.sqrt (2%:R * d - d ^+ 2) <= loss_root_error 0 d].
Proof. exact C83_loss_cancellation_lemma. Qed.
Print Assumptions C83_loss_cancellation.

(* C83: the computed transmissivities, in ascending order *)
Theorem C83_transmissivities :
  forall (R : rcfType) (u d : R) (B : arith R) (f_sqrt : R -> R) (f_dot : seq (ComplexField.complex_numFieldType R) -> seq (ComplexField.complex_numFieldType R) -> (ComplexField.complex_numFieldType R))
    (svd : (seq (seq (ComplexField.complex_numFieldType R))) -> res ((seq (seq (ComplexField.complex_numFieldType R))) * seq R * (seq (seq (ComplexField.complex_numFieldType R))))) (m : nat) (M M0 V U : (seq (seq (ComplexField.complex_numFieldType R)))) (s : seq R) (V0 : (seq (seq (ComplexField.complex_numFieldType R)))) (s0 : seq R) (U0 : (seq (seq (ComplexField.complex_numFieldType R)))),
  0 <= u -> 0 <= d -> accurate u B -> accurate_sqrt u f_sqrt -> accurate_dot (u%:C)%C f_dot ->
  (0 < m)%N -> svd M = Ok (V, s, U) -> near_svd m d M0 V s U -> subunitary m M0 ->
  is_svd m M0 V0 s0 U0 -> (forall i : nat, (i < m)%N -> `|s`_i - s0`_i| <= d) ->
  exists l, [/\ fl_modes_transmissivities B svd M = Ok l, size l = m &
    forall i : nat, (i < m)%N -> `|l`_i - s0`_(m.-1 - i) ^+ 2| <= square_sv_error u d].
Proof. exact C83_transmissivities_lemma. Qed.
Print Assumptions C83_transmissivities.

(* C83: the network without losses *)
Theorem C83_lossless_network :
  forall (R : rcfType) (u : R) (f_dot : seq (ComplexField.complex_numFieldType R) -> seq (ComplexField.complex_numFieldType R) -> (ComplexField.complex_numFieldType R)) (m : nat) (M : (seq (seq (ComplexField.complex_numFieldType R)))) (v : seq (ComplexField.complex_numFieldType R)),
  accurate_dot (u%:C)%C f_dot -> is_square m M -> size v = m ->
  exists w, [/\ fl_lossless_network f_dot M v = Ok w, size w = m & forall i : nat, (i < m)%N ->
    `|w`_i - \sum_(j < m) ent M i j * v`_j| <= (((1 + u) ^+ m.+1 - 1)%:C)%C * \sum_(j < m) `|ent M i j * v`_j|].
Proof. exact C83_lossless_network_lemma. Qed.
Print Assumptions C83_lossless_network.

(* C83: the network with losses, built from the rounded expanded matrix *)
Theorem C83_lossy_network :
  forall (R : rcfType) (u d : R) (B : arith R) (f_sqrt : R -> R) (f_dot : seq (ComplexField.complex_numFieldType R) -> seq (ComplexField.complex_numFieldType R) -> (ComplexField.complex_numFieldType R))
    (svd : (seq (seq (ComplexField.complex_numFieldType R))) -> res ((seq (seq (ComplexField.complex_numFieldType R))) * seq R * (seq (seq (ComplexField.complex_numFieldType R))))) (m : nat) (M M0 V U : (seq (seq (ComplexField.complex_numFieldType R)))) (s : seq R) (E : (seq (seq (ComplexField.complex_numFieldType R)))) (v : seq (ComplexField.complex_numFieldType R)),
  0 <= u -> 0 <= d -> accurate u B -> accurate_sqrt u f_sqrt -> accurate_dot (u%:C)%C f_dot ->
  (0 < m)%N -> svd M = Ok (V, s, U) -> near_svd m d M0 V s U -> subunitary m M0 ->
  fl_prepare_expanded B f_sqrt f_dot svd M = Ok E -> size v = m ->
  exists w, [/\ fl_lossy_network_simulate f_dot E v = Ok w, size w = m & forall i : nat, (i < m)%N ->
    `|w`_i - \sum_(j < m) ent M0 i j * v`_j| <=
      (((1 + u) ^+ (m + m).+1 * (1 + expand_error u d m) - 1)%:C)%C * \sum_(j < m) `|v`_j|].
Proof. exact C83_lossy_network_lemma. Qed.
Print Assumptions C83_lossy_network.

(* C83: k samples of the strategy for networks with losses.  For every way D of completing M0 to a lossless network, expectations of any test f (0 if an error is raised) differ from those of k exact independent samples by at most k times this error *)
Theorem C83_sampler :
  forall (R : rcfType) (u d : R) (B : arith R) (f_sqrt : R -> R) (f_dot : seq (ComplexField.complex_numFieldType R) -> seq (ComplexField.complex_numFieldType R) -> (ComplexField.complex_numFieldType R))
    (svd : (seq (seq (ComplexField.complex_numFieldType R))) -> res ((seq (seq (ComplexField.complex_numFieldType R))) * seq R * (seq (seq (ComplexField.complex_numFieldType R))))) (m : nat) (M M0 V U : (seq (seq (ComplexField.complex_numFieldType R)))) (s : seq R)
    (A : arith (ComplexField.complex_numFieldType R)) (f_abs : (ComplexField.complex_numFieldType R) -> R) (f_sum f_check : seq R -> R) (f_search : R -> seq R -> nat) (fuel N : nat)
    (t : seq nat) (k : nat) (b : gccb R) (f : seq (seq nat) -> R) (dd : nat) (D : (seq (seq (ComplexField.complex_numFieldType R)))),
  0 <= u -> 0 <= d -> accurate u B -> accurate_sqrt u f_sqrt -> accurate_dot (u%:C)%C f_dot ->
  (0 < m)%N -> svd M = Ok (V, s, U) -> near_svd m d M0 V s U -> subunitary m M0 ->
  accurate (u%:C)%C A -> (forall z, `|f_abs z - py_abs z| <= u * py_abs z) ->
  accurate_sum u f_sum -> accurate_sum u f_check -> right_search f_search -> (0 < N)%N ->
  size t = m -> (code_number t <= fuel)%N -> (9 * (m + m) + 4)%:R * u <= (2%:R ^+ 27)^-1 ->
  fl_prepare_expanded B f_sqrt f_dot svd M = Ok (calc_matrix (b_calc b)) -> dilation m dd M0 D -> (forall L, 0 <= f L <= 1) ->
  exists v, has_exp (on_ok (fun z => f z.1)) (fl_lossy_net_simulate B A f_abs f_sum f_check f_search fuel N t k b) v /\
    `|v - iid_exp (lcomps m (sumn t)) (traced_prob dd D t) k f| <= k%:R * gccb_error u (expand_error u d m) N (m + m) (t ++ nseq m 0%N) (sumn t).
Proof. exact C83_sampler_lemma. Qed.
Print Assumptions C83_sampler.

(* C83: the probability that all k samples are returned *)
Theorem C83_seldom_fails :
  forall (R : rcfType) (u d : R) (B : arith R) (f_sqrt : R -> R) (f_dot : seq (ComplexField.complex_numFieldType R) -> seq (ComplexField.complex_numFieldType R) -> (ComplexField.complex_numFieldType R))
    (svd : (seq (seq (ComplexField.complex_numFieldType R))) -> res ((seq (seq (ComplexField.complex_numFieldType R))) * seq R * (seq (seq (ComplexField.complex_numFieldType R))))) (m : nat) (M M0 V U : (seq (seq (ComplexField.complex_numFieldType R)))) (s : seq R)
    (A : arith (ComplexField.complex_numFieldType R)) (f_abs : (ComplexField.complex_numFieldType R) -> R) (f_sum f_check : seq R -> R) (f_search : R -> seq R -> nat) (fuel N : nat)
    (t : seq nat) (k : nat) (b : gccb R),
  0 <= u -> 0 <= d -> accurate u B -> accurate_sqrt u f_sqrt -> accurate_dot (u%:C)%C f_dot ->
  (0 < m)%N -> svd M = Ok (V, s, U) -> near_svd m d M0 V s U -> subunitary m M0 ->
  accurate (u%:C)%C A -> (forall z, `|f_abs z - py_abs z| <= u * py_abs z) ->
  accurate_sum u f_sum -> accurate_sum u f_check -> right_search f_search -> (0 < N)%N ->
  size t = m -> (code_number t <= fuel)%N -> (9 * (m + m) + 4)%:R * u <= (2%:R ^+ 27)^-1 ->
  fl_prepare_expanded B f_sqrt f_dot svd M = Ok (calc_matrix (b_calc b)) ->
  exists v, has_exp (on_ok (fun=> 1)) (fl_lossy_net_simulate B A f_abs f_sum f_check f_search fuel N t k b) v /\ 1 - k%:R * gccb_error u (expand_error u d m) N (m + m) (t ++ nseq m 0%N) (sumn t) <= v.
Proof. exact C83_seldom_fails_lemma. Qed.
Print Assumptions C83_seldom_fails.

(* C83: two networks with losses whose entries differ by at most eps: the total variation distance of their distributions, and what it means for any test of k samples *)
Theorem C83_continuity :
  forall (R : rcfType) (m : nat) (M0 M : (seq (seq (ComplexField.complex_numFieldType R)))) (eps : R) (d d0 : nat) (D D0 : (seq (seq (ComplexField.complex_numFieldType R)))) (s : seq nat) (k : nat) (f : seq (seq nat) -> R),
  (0 < m)%N -> 0 <= eps -> subunitary m M -> subunitary m M0 -> close m eps M M0 ->
  dilation m d M D -> dilation m d0 M0 D0 -> size s = m -> (forall L, 0 <= f L <= 1) ->
  \sum_(t <- lcomps m (sumn s)) `|traced_prob d D s t - traced_prob d0 D0 s t| / 2%:R <= network_error eps m s /\
  `|iid_exp (lcomps m (sumn s)) (traced_prob d D s) k f - iid_exp (lcomps m (sumn s)) (traced_prob d0 D0 s) k f| <=
    k%:R * network_error eps m s.
Proof. exact C83_continuity_lemma. Qed.
Print Assumptions C83_continuity.

(* C83: the same for the given network M, if it differs from the decomposed one by at most eps *)
Theorem C83_sampler_given_matrix :
  forall (R : rcfType) (u d : R) (B : arith R) (f_sqrt : R -> R) (f_dot : seq (ComplexField.complex_numFieldType R) -> seq (ComplexField.complex_numFieldType R) -> (ComplexField.complex_numFieldType R))
    (svd : (seq (seq (ComplexField.complex_numFieldType R))) -> res ((seq (seq (ComplexField.complex_numFieldType R))) * seq R * (seq (seq (ComplexField.complex_numFieldType R))))) (m : nat) (M M0 V U : (seq (seq (ComplexField.complex_numFieldType R)))) (s : seq R)
    (A : arith (ComplexField.complex_numFieldType R)) (f_abs : (ComplexField.complex_numFieldType R) -> R) (f_sum f_check : seq R -> R) (f_search : R -> seq R -> nat) (fuel N : nat)
    (t : seq nat) (k : nat) (b : gccb R) (f : seq (seq nat) -> R) (dd : nat) (D : (seq (seq (ComplexField.complex_numFieldType R)))) (eps : R),
  0 <= u -> 0 <= d -> accurate u B -> accurate_sqrt u f_sqrt -> accurate_dot (u%:C)%C f_dot ->
  (0 < m)%N -> svd M = Ok (V, s, U) -> near_svd m d M0 V s U -> subunitary m M0 ->
  accurate (u%:C)%C A -> (forall z, `|f_abs z - py_abs z| <= u * py_abs z) ->
  accurate_sum u f_sum -> accurate_sum u f_check -> right_search f_search -> (0 < N)%N ->
  size t = m -> (code_number t <= fuel)%N -> (9 * (m + m) + 4)%:R * u <= (2%:R ^+ 27)^-1 ->
  fl_prepare_expanded B f_sqrt f_dot svd M = Ok (calc_matrix (b_calc b)) -> 0 <= eps -> subunitary m M -> close m eps M M0 -> dilation m dd M D -> (forall L, 0 <= f L <= 1) ->
  exists v, has_exp (on_ok (fun z => f z.1)) (fl_lossy_net_simulate B A f_abs f_sum f_check f_search fuel N t k b) v /\
    `|v - iid_exp (lcomps m (sumn t)) (traced_prob dd D t) k f| <=
      k%:R * (gccb_error u (expand_error u d m) N (m + m) (t ++ nseq m 0%N) (sumn t) + network_error eps m t).
Proof. exact C83_sampler_given_matrix_lemma. Qed.
Print Assumptions C83_sampler_given_matrix.

(* C83: the constructor and set_new_matrix store the rounded expanded matrix, the constructor also in the calculator of the caller; a failure of the decomposition is passed on *)
Theorem C83_construct :
  forall (R : rcfType) (B : arith R) (f_sqrt : R -> R) (f_dot : seq (ComplexField.complex_numFieldType R) -> seq (ComplexField.complex_numFieldType R) -> (ComplexField.complex_numFieldType R)) (svd : (seq (seq (ComplexField.complex_numFieldType R))) -> res ((seq (seq (ComplexField.complex_numFieldType R))) * seq R * (seq (seq (ComplexField.complex_numFieldType R))))) (M : (seq (seq (ComplexField.complex_numFieldType R)))) (a : any_calc (ComplexField.complex_numFieldType R)) (b : gccb R),
  calc_matrix a = M ->
  match fl_prepare_expanded B f_sqrt f_dot svd M with
  | Ok E => [/\ exists b', fl_new_lossy_net B f_sqrt f_dot svd a = Ok (b', set_matrix E a) /\ calc_matrix (b_calc b') = E,
      calc_matrix (set_matrix E a) = E
    & exists b', fl_lossy_net_set_new_matrix B f_sqrt f_dot svd M b = Ok b' /\ calc_matrix (b_calc b') = E]
  | Err e => fl_new_lossy_net B f_sqrt f_dot svd a = Err e /\ fl_lossy_net_set_new_matrix B f_sqrt f_dot svd M b = Err e
  end.
Proof. exact C83_construct_lemma. Qed.
Print Assumptions C83_construct.
