(* Final forms of the lemmas behind the property theorems: C83 (rounding errors of networks with losses). *)
From mathcomp Require Import all_ssreflect all_algebra complex ring zify.
From Verif Require Import Base SpecStates Combi SpecPerm SpecBS ModelStates ModelPerm ModelDist ProofDist1 SpecProb ModelGcc ModelGccB ModelNet SpecNet ModelFloat ModelFloatGcc ModelFloatGccB ModelFloatNet SpecFloat SpecFloatGcc SpecFloatSub SpecFloatGccB SpecFloatNet ProofGccB2 ProofFloatNet5 ProofSample1 ProofFloat ProofFloatNet3 ProofFloatNet4.
Set Implicit Arguments.
Unset Strict Implicit.
Unset Printing Implicit Defensive.
Import Order.TTheory GRing.Theory Num.Theory.
Local Open Scope ring_scope.
Local Open Scope py_scope.

Lemma C83_exact_arithmetic_lemma :
  forall (R : rcfType) (svd : (seq (seq (ComplexField.complex_numFieldType R))) -> res ((seq (seq (ComplexField.complex_numFieldType R))) * seq R * (seq (seq (ComplexField.complex_numFieldType R))))) (M E : (seq (seq (ComplexField.complex_numFieldType R)))) (v : seq (ComplexField.complex_numFieldType R)),
  let B := exact_arith R in
  [/\ fl_prepare_expanded B Num.sqrt (@exact_dot (ComplexField.complex_numFieldType R)) svd M = prepare_expanded svd M,
      fl_modes_transmissivities B svd M = modes_transmissivities svd M,
      fl_lossless_network (@exact_dot (ComplexField.complex_numFieldType R)) M v = lossless_network M v &
      fl_lossy_network_simulate (@exact_dot (ComplexField.complex_numFieldType R)) E v = lossy_network_simulate E v].
Proof.
move=> R svd M E v; split; [exact: fl_prepare_exact|by []|exact: fl_dot_exact|exact: fl_network_exact].
Qed.

Lemma C83_dot_lemma :
  forall (F : numFieldType) (u : F) (A : arith F) (f_sum : seq F -> F), 0 <= u -> accurate u A -> accurate_sum u f_sum ->
  accurate_dot u (fun x y => f_sum [seq f_mul A z.1 z.2 | z <- zip x y]).
Proof.
exact: dot_of_sum.
Qed.

Lemma C83_expanded_matrix_lemma :
  forall (R : rcfType) (u d : R) (B : arith R) (f_sqrt : R -> R) (f_dot : seq (ComplexField.complex_numFieldType R) -> seq (ComplexField.complex_numFieldType R) -> (ComplexField.complex_numFieldType R))
    (svd : (seq (seq (ComplexField.complex_numFieldType R))) -> res ((seq (seq (ComplexField.complex_numFieldType R))) * seq R * (seq (seq (ComplexField.complex_numFieldType R))))) (m : nat) (M M0 V U : (seq (seq (ComplexField.complex_numFieldType R)))) (s : seq R),
  0 <= u -> 0 <= d -> accurate u B -> accurate_sqrt u f_sqrt -> accurate_dot (u%:C)%C f_dot ->
  (0 < m)%N -> svd M = Ok (V, s, U) -> near_svd m d M0 V s U -> subunitary m M0 ->
  exists E E0 : (seq (seq (ComplexField.complex_numFieldType R))), [/\ fl_prepare_expanded B f_sqrt f_dot svd M = Ok E, is_square (m + m) E,
    dilation m m M0 E0, close (m + m) (expand_error u d m) E E0 &
    forall i j : nat, (i < m + m)%N -> (j < m + m)%N -> `|ent E0 i j| <= 1].
Proof.
move=> R u d B f_sqrt f_dot svd m M M0 V U s u0 d0 aB asq aD m0 eM ns su.
by have [E [E0 [e1 sq [_ b] dl c]]] := fl_prepare_ok u0 d0 aB asq aD m0 eM ns su; exists E, E0.
Qed.

Lemma C83_loss_cancellation_lemma :
  forall (R : rcfType) (d : R), 0 <= d <= 1 ->
  [/\ loss_expansion [:: (1 : R) ^+ 2] = [:: [:: 0]],
      fl_loss_expansion (exact_arith R) Num.sqrt [:: (1 - d) ^+ 2] = [:: [:: (Num.sqrt (2%:R * d - d ^+ 2))%:C%C]],
      Num.sqrt d <= Num.sqrt (2%:R * d - d ^+ 2) &
      Num.sqrt (2%:R * d - d ^+ 2) <= loss_root_error 0 d].
Proof.
move=> R d /andP[d0 d1]; have dd : d ^+ 2 <= d by rewrite expr2 -[X in _ <= X]mulr1 ler_wpmul2l.
have e : 1 - (1 - d) ^+ 2 = 2%:R * d - d ^+ 2 by ring.
have h : d <= 2%:R * d - d ^+ 2 by rewrite mulr_natl mulr2n -addrA ler_addl subr_ge0.
split.
- by rewrite /loss_expansion /np_diag /= expr1n subrr ltxx sqrtr0.
- rewrite /fl_loss_expansion /np_diag /= e ltNge (le_trans d0 h) /=.
  by [].
- exact: ler_wsqrtr.
rewrite /loss_root_error addr0 mul1r [1 + _]addrC addrK; apply: ler_wsqrtr.
rewrite /loss_sv_error addr0 expr1n mul1r -subr_ge0.
have -> : (1 + d) ^+ 2 - 1 - (2%:R * d - d ^+ 2) = d ^+ 2 + d ^+ 2 by ring.
by rewrite addr_ge0 ?sqr_ge0.
Qed.

Lemma C83_transmissivities_lemma :
  forall (R : rcfType) (u d : R) (B : arith R) (f_sqrt : R -> R) (f_dot : seq (ComplexField.complex_numFieldType R) -> seq (ComplexField.complex_numFieldType R) -> (ComplexField.complex_numFieldType R))
    (svd : (seq (seq (ComplexField.complex_numFieldType R))) -> res ((seq (seq (ComplexField.complex_numFieldType R))) * seq R * (seq (seq (ComplexField.complex_numFieldType R))))) (m : nat) (M M0 V U : (seq (seq (ComplexField.complex_numFieldType R)))) (s : seq R) (V0 : (seq (seq (ComplexField.complex_numFieldType R)))) (s0 : seq R) (U0 : (seq (seq (ComplexField.complex_numFieldType R)))),
  0 <= u -> 0 <= d -> accurate u B -> accurate_sqrt u f_sqrt -> accurate_dot (u%:C)%C f_dot ->
  (0 < m)%N -> svd M = Ok (V, s, U) -> near_svd m d M0 V s U -> subunitary m M0 ->
  is_svd m M0 V0 s0 U0 -> (forall i : nat, (i < m)%N -> `|s`_i - s0`_i| <= d) ->
  exists l, [/\ fl_modes_transmissivities B svd M = Ok l, size l = m &
    forall i : nat, (i < m)%N -> `|l`_i - s0`_(m.-1 - i) ^+ 2| <= square_sv_error u d].
Proof.
move=> R u d B f_sqrt f_dot svd m M M0 V U s V0 s0 U0 u0 d0 aB asq aD m0 eM ns su isv cs.
have [l [h1 h2 h3]] := fl_transmissivities_ok u0 d0 aB m0 eM ns su; exists l; split=> // i im.
exact: (h3 V0 s0 U0 isv cs i im).
Qed.

Lemma C83_lossless_network_lemma :
  forall (R : rcfType) (u : R) (f_dot : seq (ComplexField.complex_numFieldType R) -> seq (ComplexField.complex_numFieldType R) -> (ComplexField.complex_numFieldType R)) (m : nat) (M : (seq (seq (ComplexField.complex_numFieldType R)))) (v : seq (ComplexField.complex_numFieldType R)),
  accurate_dot (u%:C)%C f_dot -> is_square m M -> size v = m ->
  exists w, [/\ fl_lossless_network f_dot M v = Ok w, size w = m & forall i : nat, (i < m)%N ->
    `|w`_i - \sum_(j < m) ent M i j * v`_j| <= (((1 + u) ^+ m.+1 - 1)%:C)%C * \sum_(j < m) `|ent M i j * v`_j|].
Proof.
move=> R u f_dot m M v aD sq sv; exact: fl_lossless_ok.
Qed.

Lemma C83_lossy_network_lemma :
  forall (R : rcfType) (u d : R) (B : arith R) (f_sqrt : R -> R) (f_dot : seq (ComplexField.complex_numFieldType R) -> seq (ComplexField.complex_numFieldType R) -> (ComplexField.complex_numFieldType R))
    (svd : (seq (seq (ComplexField.complex_numFieldType R))) -> res ((seq (seq (ComplexField.complex_numFieldType R))) * seq R * (seq (seq (ComplexField.complex_numFieldType R))))) (m : nat) (M M0 V U : (seq (seq (ComplexField.complex_numFieldType R)))) (s : seq R) (E : (seq (seq (ComplexField.complex_numFieldType R)))) (v : seq (ComplexField.complex_numFieldType R)),
  0 <= u -> 0 <= d -> accurate u B -> accurate_sqrt u f_sqrt -> accurate_dot (u%:C)%C f_dot ->
  (0 < m)%N -> svd M = Ok (V, s, U) -> near_svd m d M0 V s U -> subunitary m M0 ->
  fl_prepare_expanded B f_sqrt f_dot svd M = Ok E -> size v = m ->
  exists w, [/\ fl_lossy_network_simulate f_dot E v = Ok w, size w = m & forall i : nat, (i < m)%N ->
    `|w`_i - \sum_(j < m) ent M0 i j * v`_j| <=
      (((1 + u) ^+ (m + m).+1 * (1 + expand_error u d m) - 1)%:C)%C * \sum_(j < m) `|v`_j|].
Proof.
move=> R u d B f_sqrt f_dot svd m M M0 V U s E v u0 d0 aB asq aD m0 eM ns su eE sv.
have [E' [E0 [e1 sq [_ b] [c _] cl]]] := fl_prepare_ok u0 d0 aB asq aD m0 eM ns su.
have <- : E' = E by move: eE; rewrite e1 => -[].
have e0 : 0 <= expand_error u d m := expand_error_ge0 u0 d0 m.
exact: (fl_lossy_ok u0 aD m0 e0 sq b c cl sv).
Qed.

Lemma C83_sampler_lemma :
  forall (R : rcfType) (u d : R) (B : arith R) (f_sqrt : R -> R) (f_dot : seq (ComplexField.complex_numFieldType R) -> seq (ComplexField.complex_numFieldType R) -> (ComplexField.complex_numFieldType R))
    (svd : (seq (seq (ComplexField.complex_numFieldType R))) -> res ((seq (seq (ComplexField.complex_numFieldType R))) * seq R * (seq (seq (ComplexField.complex_numFieldType R))))) (m : nat) (M M0 V U : (seq (seq (ComplexField.complex_numFieldType R)))) (s : seq R)
    (A : arith (ComplexField.complex_numFieldType R)) (f_abs : (ComplexField.complex_numFieldType R) -> R) (f_sum f_check : seq R -> R) (f_search : R -> seq R -> nat) (fuel N : nat)
    (t : seq nat) (k : nat) (b : gccb R) (f : seq (seq nat) -> R) (dd : nat) (D : (seq (seq (ComplexField.complex_numFieldType R)))),
  0 <= u -> 0 <= d -> accurate u B -> accurate_sqrt u f_sqrt -> accurate_dot (u%:C)%C f_dot ->
  (0 < m)%N -> svd M = Ok (V, s, U) -> near_svd m d M0 V s U -> subunitary m M0 ->
  accurate (u%:C)%C A -> (forall z, `|f_abs z - py_abs z| <= u * py_abs z) ->
  accurate_sum u f_sum -> accurate_sum u f_check -> right_search f_search -> (0 < N)%N ->
  size t = m -> (code_number t <= fuel)%N -> (9 * (m + m) + 4)%:R * u <= (2%:R ^+ 27)^-1 ->
  fl_prepare_expanded B f_sqrt f_dot svd M = Ok (calc_matrix (b_calc b)) -> dilation m dd M0 D -> (forall L, 0 <= f L <= 1) ->
  exists v, has_exp (on_ok (fun z => f z.1)) (fl_lossy_net_simulate B A f_abs f_sum f_check f_search fuel N t k b) v /\
    `|v - iid_exp (lcomps m (sumn t)) (traced_prob dd D t) k f| <= k%:R * gccb_error u (expand_error u d m) N (m + m) (t ++ nseq m 0%N) (sumn t).
Proof.
move=> R u d B f_sqrt f_dot svd m M M0 V U s A f_abs f_sum f_check f_search fuel N t k b f dd D u0 d0 aB asq aD m0 eM ns su aA ab as_ ac sr N0 st fu small eb dD f01.
have [v [h _ e]] := fl_lossy_net_exp u0 d0 aB asq aD m0 eM ns su aA ab as_ ac sr N0 st fu small k f01 eb dD.
by exists v.
Qed.

Lemma C83_seldom_fails_lemma :
  forall (R : rcfType) (u d : R) (B : arith R) (f_sqrt : R -> R) (f_dot : seq (ComplexField.complex_numFieldType R) -> seq (ComplexField.complex_numFieldType R) -> (ComplexField.complex_numFieldType R))
    (svd : (seq (seq (ComplexField.complex_numFieldType R))) -> res ((seq (seq (ComplexField.complex_numFieldType R))) * seq R * (seq (seq (ComplexField.complex_numFieldType R))))) (m : nat) (M M0 V U : (seq (seq (ComplexField.complex_numFieldType R)))) (s : seq R)
    (A : arith (ComplexField.complex_numFieldType R)) (f_abs : (ComplexField.complex_numFieldType R) -> R) (f_sum f_check : seq R -> R) (f_search : R -> seq R -> nat) (fuel N : nat)
    (t : seq nat) (k : nat) (b : gccb R),
  0 <= u -> 0 <= d -> accurate u B -> accurate_sqrt u f_sqrt -> accurate_dot (u%:C)%C f_dot ->
  (0 < m)%N -> svd M = Ok (V, s, U) -> near_svd m d M0 V s U -> subunitary m M0 ->
  accurate (u%:C)%C A -> (forall z, `|f_abs z - py_abs z| <= u * py_abs z) ->
  accurate_sum u f_sum -> accurate_sum u f_check -> right_search f_search -> (0 < N)%N ->
  size t = m -> (code_number t <= fuel)%N -> (9 * (m + m) + 4)%:R * u <= (2%:R ^+ 27)^-1 ->
  fl_prepare_expanded B f_sqrt f_dot svd M = Ok (calc_matrix (b_calc b)) ->
  exists v, has_exp (on_ok (fun=> 1)) (fl_lossy_net_simulate B A f_abs f_sum f_check f_search fuel N t k b) v /\ 1 - k%:R * gccb_error u (expand_error u d m) N (m + m) (t ++ nseq m 0%N) (sumn t) <= v.
Proof.
move=> R u d B f_sqrt f_dot svd m M M0 V U s A f_abs f_sum f_check f_search fuel N t k b u0 d0 aB asq aD m0 eM ns su aA ab as_ ac sr N0 st fu small eb.
have f01 (L : seq (seq nat)) : 0 <= (1 : R) <= 1 by rewrite ler01 lexx.
have [E [E0 [_ _ _ dE _]]] := fl_prepare_ok u0 d0 aB asq aD m0 eM ns su.
have [v [h _ e]] := fl_lossy_net_exp u0 d0 aB asq aD m0 eM ns su aA ab as_ ac sr N0 st fu small k f01 eb dE.
exists v; split=> //; move: e; rewrite iid_exp_const ?ler_distl; first by case/andP.
exact: (traced_norm m0 su dE st).
Qed.

Lemma C83_continuity_lemma :
  forall (R : rcfType) (m : nat) (M0 M : (seq (seq (ComplexField.complex_numFieldType R)))) (eps : R) (d d0 : nat) (D D0 : (seq (seq (ComplexField.complex_numFieldType R)))) (s : seq nat) (k : nat) (f : seq (seq nat) -> R),
  (0 < m)%N -> 0 <= eps -> subunitary m M -> subunitary m M0 -> close m eps M M0 ->
  dilation m d M D -> dilation m d0 M0 D0 -> size s = m -> (forall L, 0 <= f L <= 1) ->
  \sum_(t <- lcomps m (sumn s)) `|traced_prob d D s t - traced_prob d0 D0 s t| / 2%:R <= network_error eps m s /\
  `|iid_exp (lcomps m (sumn s)) (traced_prob d D s) k f - iid_exp (lcomps m (sumn s)) (traced_prob d0 D0 s) k f| <=
    k%:R * network_error eps m s.
Proof.
move=> R m M0 M eps d d0 D D0 s k f m0 e0 su su0 c dD dD0 ss f01; split; last exact: (traced_iid k m0 e0 su su0 c dD dD0 ss f01).
rewrite -mulr_suml ler_pdivr_mulr ?ltr0n // mulrC.
exact: (traced_distance e0 (subunitary_entries su0) c dD dD0 ss).
Qed.

Lemma C83_sampler_given_matrix_lemma :
  forall (R : rcfType) (u d : R) (B : arith R) (f_sqrt : R -> R) (f_dot : seq (ComplexField.complex_numFieldType R) -> seq (ComplexField.complex_numFieldType R) -> (ComplexField.complex_numFieldType R))
    (svd : (seq (seq (ComplexField.complex_numFieldType R))) -> res ((seq (seq (ComplexField.complex_numFieldType R))) * seq R * (seq (seq (ComplexField.complex_numFieldType R))))) (m : nat) (M M0 V U : (seq (seq (ComplexField.complex_numFieldType R)))) (s : seq R)
    (A : arith (ComplexField.complex_numFieldType R)) (f_abs : (ComplexField.complex_numFieldType R) -> R) (f_sum f_check : seq R -> R) (f_search : R -> seq R -> nat) (fuel N : nat)
    (t : seq nat) (k : nat) (b : gccb R) (f : seq (seq nat) -> R) (dd : nat) (D : (seq (seq (ComplexField.complex_numFieldType R)))) (eps : R),
  0 <= u -> 0 <= d -> accurate u B -> accurate_sqrt u f_sqrt -> accurate_dot (u%:C)%C f_dot ->
  (0 < m)%N -> svd M = Ok (V, s, U) -> near_svd m d M0 V s U -> subunitary m M0 ->
  accurate (u%:C)%C A -> (forall z, `|f_abs z - py_abs z| <= u * py_abs z) ->
  accurate_sum u f_sum -> accurate_sum u f_check -> right_search f_search -> (0 < N)%N ->
  size t = m -> (code_number t <= fuel)%N -> (9 * (m + m) + 4)%:R * u <= (2%:R ^+ 27)^-1 ->
  fl_prepare_expanded B f_sqrt f_dot svd M = Ok (calc_matrix (b_calc b)) -> 0 <= eps -> subunitary m M -> close m eps M M0 -> dilation m dd M D -> (forall L, 0 <= f L <= 1) ->
  exists v, has_exp (on_ok (fun z => f z.1)) (fl_lossy_net_simulate B A f_abs f_sum f_check f_search fuel N t k b) v /\
    `|v - iid_exp (lcomps m (sumn t)) (traced_prob dd D t) k f| <=
      k%:R * (gccb_error u (expand_error u d m) N (m + m) (t ++ nseq m 0%N) (sumn t) + network_error eps m t).
Proof.
move=> R u d B f_sqrt f_dot svd m M M0 V U s A f_abs f_sum f_check f_search fuel N t k b f dd D eps u0 d0 aB asq aD m0 eM ns su aA ab as_ ac sr N0 st fu small eb e0 suM c dD f01.
have [E [E0 [_ _ _ dE _]]] := fl_prepare_ok u0 d0 aB asq aD m0 eM ns su.
have [v [h _ e]] := fl_lossy_net_exp u0 d0 aB asq aD m0 eM ns su aA ab as_ ac sr N0 st fu small k f01 eb dE.
exists v; split=> //; apply: le_trans (ler_dist_add (iid_exp (lcomps m (sumn t)) (traced_prob m E0 t) k f) _ _) _.
rewrite mulrDr; apply: ler_add => //; rewrite distrC.
exact: (traced_iid k m0 e0 suM su c dD dE st f01).
Qed.

Lemma C83_construct_lemma :
  forall (R : rcfType) (B : arith R) (f_sqrt : R -> R) (f_dot : seq (ComplexField.complex_numFieldType R) -> seq (ComplexField.complex_numFieldType R) -> (ComplexField.complex_numFieldType R)) (svd : (seq (seq (ComplexField.complex_numFieldType R))) -> res ((seq (seq (ComplexField.complex_numFieldType R))) * seq R * (seq (seq (ComplexField.complex_numFieldType R))))) (M : (seq (seq (ComplexField.complex_numFieldType R)))) (a : any_calc (ComplexField.complex_numFieldType R)) (b : gccb R),
  calc_matrix a = M ->
  match fl_prepare_expanded B f_sqrt f_dot svd M with
  | Ok E => [/\ exists b', fl_new_lossy_net B f_sqrt f_dot svd a = Ok (b', set_matrix E a) /\ calc_matrix (b_calc b') = E,
      calc_matrix (set_matrix E a) = E
    & exists b', fl_lossy_net_set_new_matrix B f_sqrt f_dot svd M b = Ok b' /\ calc_matrix (b_calc b') = E]
  | Err e => fl_new_lossy_net B f_sqrt f_dot svd a = Err e /\ fl_lossy_net_set_new_matrix B f_sqrt f_dot svd M b = Err e
  end.
Proof.
move=> R B f_sqrt f_dot svd M a b e; rewrite /fl_new_lossy_net /fl_lossy_net_set_new_matrix e.
case: (fl_prepare_expanded _ _ _ _ _) => [E|er]; last by [].
split; [exists (new_gccb (set_matrix E a))|by case: (a)|exists (b_set_new_matrix E b)]; split=> //=.
  by case: (a).
by case: (b_calc b).
Qed.
