(* Final forms of the lemmas behind the property theorems: C84 (rounding errors of version A with uniform losses). *)
From mathcomp Require Import all_ssreflect all_algebra complex ring zify.
From Verif Require Import Base SpecStates Combi SpecPerm SpecBS ModelStates ModelPerm ModelDist ProofDist1 SpecProb ModelGcc ModelGccB ModelFloat ModelFloatGcc ModelFloatGccU SpecFloat SpecFloatGcc SpecFloatGccU BsNorm ProbMath ProofGcc1 ProofGccB2 ProofSample1 ProofFloat ProofFloat4 ProofFloatGcc1 ProofFloatGcc3 ProofFloatGcc4 LemGcc ProofFloatGccU1 ProofFloatGccU2 ProofFloatGccU3.
Set Implicit Arguments.
Unset Strict Implicit.
Unset Printing Implicit Defensive.
Import Order.TTheory GRing.Theory Num.Theory.
Local Open Scope ring_scope.
Local Open Scope py_scope.

Lemma C84_exact_arithmetic_lemma :
  forall (R : rcfType) (gray : nat -> seq nat) (fuel : nat) (s t : seq nat) (x : ugcc R) (p : R) (du : seq R * seq R),
  let A := exact_arith (ComplexField.complex_numFieldType R) in let B := exact_arith R in let f_abs := @py_abs R in let f_sum := @py_sum R in
  [/\ fl_ugcc_start B fuel s x = ugcc_start fuel s x,
      fl_record_output B x t p du = record_output x t p du
    & fl_u_new_layer A B f_abs f_sum gray fuel x = u_new_layer gray fuel x].
Proof.
move=> R gray fuel s t x p du A B f_abs f_sum.
split; [exact: fl_ugcc_start_exact|exact: fl_record_output_exact|exact: fl_u_new_layer_exact].
Qed.

Lemma C84_sampler_lemma :
  forall (R : rcfType) (u eps : R) (A : arith (ComplexField.complex_numFieldType R)) (B : arith R) (f_abs : (ComplexField.complex_numFieldType R) -> R) (f_sum : seq R -> R) (N : nat)
    (gray : nat -> seq nat) (m : nat) (U V : seq (seq (ComplexField.complex_numFieldType R))) (s : seq nat) (eta : R) (k : nat) (f : seq (seq nat) -> R),
  0 <= u -> accurate (u%:C)%C A -> accurate u B -> (forall z, `|f_abs z - py_abs z| <= u * py_abs z) -> accurate_sum u f_sum ->
  (0 < N)%N -> unitary m U -> is_square m V -> 0 <= eps ->
  (forall j i, (j < m)%N -> (i < m)%N -> `|ent V j i - ent U j i| <= (eps%:C)%C) ->
  size s = m -> (0 < m)%N -> gray_ok gray (sumn s) -> (2 * m + 1 + code_number s)%:R * u <= 8%:R^-1 -> 0 <= eta <= 1 ->
  (forall L, 0 <= f L <= 1) ->
  exists f0, forall (fuel : nat) (x : ugcc R), (f0 <= fuel)%N -> calc_matrix (g_calc (ug_gcc x)) = V -> ug_eta x = eta ->
  exists v, has_exp (on_ok (fun z => f z.1)) (fl_ugcc_simulate A B f_abs f_sum gray fuel N s k x) v /\
    `|v - iid_exp (lcomps m (sumn s)) (uniform_loss_prob U s eta) k f| <= k%:R * ugcc_error u eps N m s.
Proof.
move=> R u eps A B f_abs f_sum N gray m U V s eta k f u0 aA aB ab as_ N0 un sq e0 UV ss m0 gr small e01 f01.
have x4 : (1 + u) ^+ (2 * m + 1 + code_number s) <= 5%:R / 4%:R.
  have l2 : (2 * m + 1 + code_number s)%:R * u <= 2%:R^-1.
    by apply: le_trans small _; rewrite lef_pinv ?posrE ?ltr0n // ler_nat.
  rewrite -[_ ^+ _](subrK 1); apply: le_trans (ler_add (E_linear u0 l2) (lexx 1)) _.
  rewrite -mulrA; apply: le_trans (ler_add (ler_wpmul2l (ler0n R 2) small) (lexx 1)) _.
  by rewrite le_eqVlt; apply/orP; left; apply/eqP; field.
have [L [[f0 genL] memL uL headL]] := lossy_list (sumn s) m0.
exists (f0 + code_number s)%N => fuel x lf em ee.
have fu : (code_number s <= fuel)%N by lia.
have gL : generate_possible_states fuel (Posz (sumn s)) (Posz (size s)) true = Ok L by rewrite ss; apply: genL; lia.
have [v [h _ e]] := fl_ugcc_simulate_exp u0 aA aB ab as_ N0 un sq ss gr fu e0 UV x4 gL memL headL e01 k f01 em ee erefl.
by exists v.
Qed.

Lemma C84_seldom_fails_lemma :
  forall (R : rcfType) (u eps : R) (A : arith (ComplexField.complex_numFieldType R)) (B : arith R) (f_abs : (ComplexField.complex_numFieldType R) -> R) (f_sum : seq R -> R) (N : nat)
    (gray : nat -> seq nat) (m : nat) (U V : seq (seq (ComplexField.complex_numFieldType R))) (s : seq nat) (eta : R) (k : nat),
  0 <= u -> accurate (u%:C)%C A -> accurate u B -> (forall z, `|f_abs z - py_abs z| <= u * py_abs z) -> accurate_sum u f_sum ->
  (0 < N)%N -> unitary m U -> is_square m V -> 0 <= eps ->
  (forall j i, (j < m)%N -> (i < m)%N -> `|ent V j i - ent U j i| <= (eps%:C)%C) ->
  size s = m -> (0 < m)%N -> gray_ok gray (sumn s) -> (2 * m + 1 + code_number s)%:R * u <= 8%:R^-1 -> 0 <= eta <= 1 ->
  exists f0, forall (fuel : nat) (x : ugcc R), (f0 <= fuel)%N -> calc_matrix (g_calc (ug_gcc x)) = V -> ug_eta x = eta ->
  exists v, has_exp (on_ok (fun=> 1)) (fl_ugcc_simulate A B f_abs f_sum gray fuel N s k x) v /\ 1 - k%:R * ugcc_error u eps N m s <= v.
Proof.
move=> R u eps A B f_abs f_sum N gray m U V s eta k u0 aA aB ab as_ N0 un sq e0 UV ss m0 gr small e01.
have f01 (L : seq (seq nat)) : 0 <= (1 : R) <= 1 by rewrite ler01 lexx.
have [f0 H] := C84_sampler_lemma k u0 aA aB ab as_ N0 un sq e0 UV ss m0 gr small e01 f01.
exists f0 => fuel x lf em ee; have [v [h e]] := H fuel x lf em ee.
exists v; split=> //; move: e; rewrite iid_exp_const ?ler_distl; first by case/andP.
by rewrite big_lcomps uniform_loss_norm //; apply: (unitaryW un); rewrite ss.
Qed.

Lemma C84_collected_distribution_lemma :
  forall (R : rcfType) (u eps : R) (A : arith (ComplexField.complex_numFieldType R)) (B : arith R) (f_abs : (ComplexField.complex_numFieldType R) -> R) (f_sum : seq R -> R) (N : nat)
    (gray : nat -> seq nat) (m : nat) (U V : seq (seq (ComplexField.complex_numFieldType R))) (s : seq nat) (eta : R) (k : nat),
  0 <= u -> accurate (u%:C)%C A -> accurate u B -> (forall z, `|f_abs z - py_abs z| <= u * py_abs z) -> accurate_sum u f_sum ->
  (0 < N)%N -> unitary m U -> is_square m V -> 0 <= eps ->
  (forall j i, (j < m)%N -> (i < m)%N -> `|ent V j i - ent U j i| <= (eps%:C)%C) ->
  size s = m -> (0 < m)%N -> gray_ok gray (sumn s) -> (2 * m + 1 + code_number s)%:R * u <= 8%:R^-1 -> 0 <= eta <= 1 ->
  exists (L : seq (seq nat)) (f0 : nat), [/\ uniq L, L =i [pred t | (size t == m) && (sumn t <= sumn s)%N] & forall (fuel : nat) (x : ugcc R),
  (f0 <= fuel)%N -> calc_matrix (g_calc (ug_gcc x)) = V -> ug_eta x = eta ->
  generate_possible_states fuel (Posz (sumn s)) (Posz (size s)) true = Ok L /\
  always (fun y => y = Err IndexError \/ exists S x', [/\ y = Ok (S, x'), size S = k, all (mem L) S,
       size (ug_dist x') = size L /\ size (ug_unw x') = size L
     & forall j, (j < size L)%N ->
       ((ug_dist x')`_j = (if ug_missing x then -1 else 0) \/
          `|(ug_dist x')`_j - uniform_loss_prob U s eta (nth [::] L j)| <= weighted_error u eps m s (sumn (nth [::] L j))) /\
       ((ug_unw x')`_j = (if ug_missing x then -1 else 0) \/
          `|(ug_unw x')`_j - fixed_loss_prob U s (nth [::] L j)| <= recorded_error u eps m s (sumn (nth [::] L j)))])
    (fl_ugcc_simulate A B f_abs f_sum gray fuel N s k x)].
Proof.
move=> R u eps A B f_abs f_sum N gray m U V s eta k u0 aA aB ab as_ N0 un sq e0 UV ss m0 gr small e01.
have x4 : (1 + u) ^+ (2 * m + 1 + code_number s) <= 5%:R / 4%:R.
  have l2 : (2 * m + 1 + code_number s)%:R * u <= 2%:R^-1.
    by apply: le_trans small _; rewrite lef_pinv ?posrE ?ltr0n // ler_nat.
  rewrite -[_ ^+ _](subrK 1); apply: le_trans (ler_add (E_linear u0 l2) (lexx 1)) _.
  rewrite -mulrA; apply: le_trans (ler_add (ler_wpmul2l (ler0n R 2) small) (lexx 1)) _.
  by rewrite le_eqVlt; apply/orP; left; apply/eqP; field.
have [L [[f0 genL] memL uL headL]] := lossy_list (sumn s) m0.
exists L, (f0 + code_number s)%N; split=> // fuel x lf em ee.
have fu : (code_number s <= fuel)%N by lia.
have gL : generate_possible_states fuel (Posz (sumn s)) (Posz (size s)) true = Ok L by rewrite ss; apply: genL; lia.
split=> //; apply: always_impl (fl_ugcc_simulate_always u0 aA aB ab as_ N0 un sq ss gr fu e0 UV x4 gL memL headL e01 k em ee erefl).
by move=> _ [->|[S [x' [-> [d1 d2 d3] sS aS]]]]; [left|right; exists S, x'].
Qed.

Lemma C84_distribution_up_to_accuracy_lemma :
  forall (R : rcfType) (u eps : R) (A : arith (ComplexField.complex_numFieldType R)) (B : arith R) (f_abs : (ComplexField.complex_numFieldType R) -> R) (f_sum : seq R -> R) (N : nat)
    (gray : nat -> seq nat) (m : nat) (U V : seq (seq (ComplexField.complex_numFieldType R))) (s : seq nat) (eta : R) (accuracy tol : R),
  0 <= u -> accurate (u%:C)%C A -> accurate u B -> (forall z, `|f_abs z - py_abs z| <= u * py_abs z) -> accurate_sum u f_sum ->
  (0 < N)%N -> unitary m U -> is_square m V -> 0 <= eps ->
  (forall j i, (j < m)%N -> (i < m)%N -> `|ent V j i - ent U j i| <= (eps%:C)%C) ->
  size s = m -> (0 < m)%N -> gray_ok gray (sumn s) -> (2 * m + 1 + code_number s)%:R * u <= 8%:R^-1 -> 0 <= eta <= 1 -> 
  exists (L : seq (seq nat)) (f0 : nat), [/\ uniq L, L =i [pred t | (size t == m) && (sumn t <= sumn s)%N] & forall (fuel : nat) (x : ugcc R),
  (f0 <= fuel)%N -> calc_matrix (g_calc (ug_gcc x)) = V -> ug_eta x = eta ->
  generate_possible_states fuel (Posz (sumn s)) (Posz (size s)) true = Ok L /\
  forall rounds, always (fun y => y = Err OutOfFuel \/ y = Err IndexError \/ exists D x', [/\ y = Ok (D, x'), size D = size L,
       forall j, (j < size L)%N -> D`_j = (if ug_missing x then -1 else 0) \/
          `|D`_j - uniform_loss_prob U s eta (nth [::] L j)| <= weighted_error u eps m s (sumn (nth [::] L j))
     & Num.max (f_sub B accuracy (f_sum D)) 0 <= tol])
    (fl_compute_distribution A B f_abs f_sum gray fuel N accuracy tol rounds s x)].
Proof.
move=> R u eps A B f_abs f_sum N gray m U V s eta accuracy tol u0 aA aB ab as_ N0 un sq e0 UV ss m0 gr small e01.
have x4 : (1 + u) ^+ (2 * m + 1 + code_number s) <= 5%:R / 4%:R.
  have l2 : (2 * m + 1 + code_number s)%:R * u <= 2%:R^-1.
    by apply: le_trans small _; rewrite lef_pinv ?posrE ?ltr0n // ler_nat.
  rewrite -[_ ^+ _](subrK 1); apply: le_trans (ler_add (E_linear u0 l2) (lexx 1)) _.
  rewrite -mulrA; apply: le_trans (ler_add (ler_wpmul2l (ler0n R 2) small) (lexx 1)) _.
  by rewrite le_eqVlt; apply/orP; left; apply/eqP; field.
have [L [[f0 genL] memL uL headL]] := lossy_list (sumn s) m0.
exists L, (f0 + code_number s)%N; split=> // fuel x lf em ee.
have fu : (code_number s <= fuel)%N by lia.
have gL : generate_possible_states fuel (Posz (sumn s)) (Posz (size s)) true = Ok L by rewrite ss; apply: genL; lia.
split=> // rounds; apply: always_impl (fl_dist_always u0 aA aB ab as_ N0 un sq ss gr fu e0 UV x4 gL memL headL e01 accuracy tol rounds em ee erefl).
move=> _ [->|[->|[x' [-> [d1 d2 d3] h]]]]; [by left|by right; left|right; right].
by exists (ug_dist x'), x'; split=> // j /d3 [].
Qed.

Lemma C84_unweighted_up_to_accuracy_lemma :
  forall (R : rcfType) (u eps : R) (A : arith (ComplexField.complex_numFieldType R)) (B : arith R) (f_abs : (ComplexField.complex_numFieldType R) -> R) (f_sum : seq R -> R) (N : nat)
    (gray : nat -> seq nat) (m : nat) (U V : seq (seq (ComplexField.complex_numFieldType R))) (s : seq nat) (eta : R) (accuracy tol : R),
  0 <= u -> accurate (u%:C)%C A -> accurate u B -> (forall z, `|f_abs z - py_abs z| <= u * py_abs z) -> accurate_sum u f_sum ->
  (0 < N)%N -> unitary m U -> is_square m V -> 0 <= eps ->
  (forall j i, (j < m)%N -> (i < m)%N -> `|ent V j i - ent U j i| <= (eps%:C)%C) ->
  size s = m -> (0 < m)%N -> gray_ok gray (sumn s) -> (2 * m + 1 + code_number s)%:R * u <= 8%:R^-1 -> 0 <= eta <= 1 -> (0 < sumn s)%N ->
  exists (L : seq (seq nat)) (f0 : nat), [/\ uniq L, L =i [pred t | (size t == m) && (sumn t <= sumn s)%N] & forall (fuel : nat) (x : ugcc R),
  (f0 <= fuel)%N -> calc_matrix (g_calc (ug_gcc x)) = V -> ug_eta x = eta ->
  generate_possible_states fuel (Posz (sumn s)) (Posz (size s)) true = Ok L /\
  forall rounds, always (fun y => y = Err OutOfFuel \/ y = Err IndexError \/ exists D x', [/\ y = Ok (D, x'), size D = size L,
       forall j, (j < size L)%N -> D`_j = (if ug_missing x then -1 else 0) \/
          `|D`_j - fixed_loss_prob U s (nth [::] L j)| <= recorded_error u eps m s (sumn (nth [::] L j))
     & Num.max (f_sub B accuracy (f_div B (f_sum D) (Posz (sumn s)))) 0 <= tol])
    (fl_compute_unweighted A B f_abs f_sum gray fuel N accuracy tol rounds s x)].
Proof.
move=> R u eps A B f_abs f_sum N gray m U V s eta accuracy tol u0 aA aB ab as_ N0 un sq e0 UV ss m0 gr small e01 n0.
have x4 : (1 + u) ^+ (2 * m + 1 + code_number s) <= 5%:R / 4%:R.
  have l2 : (2 * m + 1 + code_number s)%:R * u <= 2%:R^-1.
    by apply: le_trans small _; rewrite lef_pinv ?posrE ?ltr0n // ler_nat.
  rewrite -[_ ^+ _](subrK 1); apply: le_trans (ler_add (E_linear u0 l2) (lexx 1)) _.
  rewrite -mulrA; apply: le_trans (ler_add (ler_wpmul2l (ler0n R 2) small) (lexx 1)) _.
  by rewrite le_eqVlt; apply/orP; left; apply/eqP; field.
have [L [[f0 genL] memL uL headL]] := lossy_list (sumn s) m0.
exists L, (f0 + code_number s)%N; split=> // fuel x lf em ee.
have fu : (code_number s <= fuel)%N by lia.
have gL : generate_possible_states fuel (Posz (sumn s)) (Posz (size s)) true = Ok L by rewrite ss; apply: genL; lia.
split=> // rounds; apply: always_impl (fl_unw_always u0 aA aB ab as_ N0 un sq ss gr fu e0 UV x4 gL memL headL e01 accuracy tol rounds n0 em ee erefl).
move=> _ [->|[->|[x' [-> [d1 d2 d3] h]]]]; [by left|by right; left|right; right].
by exists (ug_unw x'), x'; split=> // j /d3 [].
Qed.

Lemma C84_complete_list_stops_lemma :
  forall (R : rcfType) (u eps : R) (B : arith R) (f_sum : seq R -> R) (m : nat) (U : seq (seq (ComplexField.complex_numFieldType R))) (s : seq nat) (eta accuracy : R)
    (L : seq (seq nat)) (D : seq R),
  0 <= u <= 1 -> 0 <= eps -> accurate u B -> accurate_sum u f_sum -> unitary m U -> size s = m -> 0 <= eta <= 1 -> accuracy <= 1 ->
  uniq L -> L =i [pred t | (size t == m) && (sumn t <= sumn s)%N] -> size D = size L ->
  (forall j, (j < size L)%N -> `|D`_j - uniform_loss_prob U s eta (nth [::] L j)| <= weighted_error u eps m s (sumn (nth [::] L j))) ->
  let W := \sum_(t <- L) weighted_error u eps m s (sumn t) in
  Num.max (f_sub B accuracy (f_sum D)) 0 <= (1 + u) * (((1 + u) ^+ size L - 1) * (1 + W) + W).
Proof.
move=> R u eps B f_sum m U s eta accuracy L D /andP[u0 u1] e0 aB as_ un ss e01 a1 uL mL sD dD; cbv zeta; set W := \sum_(t <- L) _.
have uo : unitary_on m U s by apply: (unitaryW un); rewrite ss.
have w0 t : 0 <= weighted_error u eps m s t by apply: le_trans (weighted_ge u0 _ _ e0 _); exact: (E0 u0).
have W0 : 0 <= W by apply: sumr_ge0.
have pL : perm_eq L (lcomps m (sumn s)).
  by apply: uniq_perm => //; [exact: lcomps_uniq|move=> t; rewrite mL mem_lcomps].
have one : \sum_(j < size L) uniform_loss_prob U s eta (nth [::] L j) = 1.
  rewrite -(big_mkord xpredT (fun j => uniform_loss_prob U s eta (nth [::] L j))) -(big_nth [::] xpredT).
  by rewrite (perm_big _ pL) big_lcomps uniform_loss_norm.
have WE : W = \sum_(j < size L) weighted_error u eps m s (sumn (nth [::] L j)).
  by rewrite /W (big_nth [::]) big_mkord.
have DE (F : R -> R) : \sum_(x <- D) F x = \sum_(j < size L) F D`_j by rewrite (big_nth 0) big_mkord sD.
have tot : `|\sum_(x <- D) x - 1| <= W.
  rewrite -one WE DE -sumrB; apply: le_trans (ler_norm_sum _ _ _) _.
  by apply: ler_sum => j _; apply: dD.
have abs : \sum_(x <- D) `|x| <= 1 + W.
  rewrite -one WE DE -big_split; apply: ler_sum => j _ /=.
  rewrite -[D`_j](subrK (uniform_loss_prob U s eta (nth [::] L j))) addrC.
  apply: le_trans (ler_norm_add _ _) _; apply: ler_add; last exact: dD.
  rewrite ger0_norm // mulr_ge0 ?fixed_loss_prob_ge0 //.
  by have [] := bw_distr e01 (sumn s) => /allP h _; apply: h; apply: map_f; rewrite mem_iota add0n ltnS; have := mem_nth [::] (ltn_ord j); rewrite mL => /andP[].
have S : `|f_sum D - 1| <= ((1 + u) ^+ size L - 1) * (1 + W) + W.
  apply: le_trans (ler_dist_add (\sum_(x <- D) x) _ _) _; apply: ler_add => //.
  by apply: le_trans (as_ D) _; rewrite sD; apply: ler_wpmul2l => //; exact: (E0 u0).
set b := (_ + W) in S *; have b0 : 0 <= b := le_trans (normr_ge0 _) S.
have c0 : 0 <= 1 + u by rewrite addr_ge0 ?ler01.
rewrite le_maxl mulr_ge0 // andbT.
have d : accuracy - f_sum D <= b.
  rewrite ler_subl_addr (le_trans a1) // addrC -ler_subl_addl.
  by apply: le_trans (ler_norm _) _; rewrite distrC.
have h := acc_sub aB accuracy (f_sum D).
have [p|q] := lerP 0 (accuracy - f_sum D).
  have h2 := le_trans (ler_norm _) h; rewrite (ger0_norm p) ler_subl_addr in h2.
  apply: le_trans h2 _; rewrite -[X in _ + X]mul1r -mulrDl [u + 1]addrC.
  exact: ler_wpmul2l.
have h2 := le_trans (ler_norm _) h; rewrite (ltr0_norm q) ler_subl_addr in h2.
apply: le_trans h2 _; rewrite mulrN -{2}[_ - f_sum D]mul1r -mulNr -mulrDl.
apply: (@le_trans _ _ 0); last exact: mulr_ge0.
by apply: mulr_ge0_le0; [rewrite addrC subr_ge0|exact: ltW].
Qed.

Lemma C84_unweighted_empty_lemma :
  forall (R : rcfType) (u eps : R) (A : arith (ComplexField.complex_numFieldType R)) (B : arith R) (f_abs : (ComplexField.complex_numFieldType R) -> R) (f_sum : seq R -> R) (N : nat)
    (gray : nat -> seq nat) (m : nat) (U V : seq (seq (ComplexField.complex_numFieldType R))) (s : seq nat) (eta : R) (accuracy tol : R),
  0 <= u -> accurate (u%:C)%C A -> accurate u B -> (forall z, `|f_abs z - py_abs z| <= u * py_abs z) -> accurate_sum u f_sum ->
  (0 < N)%N -> unitary m U -> is_square m V -> 0 <= eps ->
  (forall j i, (j < m)%N -> (i < m)%N -> `|ent V j i - ent U j i| <= (eps%:C)%C) ->
  size s = m -> (0 < m)%N -> gray_ok gray (sumn s) -> (2 * m + 1 + code_number s)%:R * u <= 8%:R^-1 -> 0 <= eta <= 1 -> sumn s = 0%N ->
  exists f0, forall (fuel : nat) (x : ugcc R), (f0 <= fuel)%N -> calc_matrix (g_calc (ug_gcc x)) = V -> ug_eta x = eta ->
  forall rounds, fl_compute_unweighted A B f_abs f_sum gray fuel N accuracy tol rounds s x = Ret (Err ZeroDivisionError).
Proof.
move=> R u eps A B f_abs f_sum N gray m U V s eta accuracy tol u0 aA aB ab as_ N0 un sq e0 UV ss m0 gr small e01 n0.
have x4 : (1 + u) ^+ (2 * m + 1 + code_number s) <= 5%:R / 4%:R.
  have l2 : (2 * m + 1 + code_number s)%:R * u <= 2%:R^-1.
    by apply: le_trans small _; rewrite lef_pinv ?posrE ?ltr0n // ler_nat.
  rewrite -[_ ^+ _](subrK 1); apply: le_trans (ler_add (E_linear u0 l2) (lexx 1)) _.
  rewrite -mulrA; apply: le_trans (ler_add (ler_wpmul2l (ler0n R 2) small) (lexx 1)) _.
  by rewrite le_eqVlt; apply/orP; left; apply/eqP; field.
have [L [[f0 genL] memL uL headL]] := lossy_list (sumn s) m0.
exists (f0 + code_number s)%N => fuel x lf em ee.
have fu : (code_number s <= fuel)%N by lia.
have gL : generate_possible_states fuel (Posz (sumn s)) (Posz (size s)) true = Ok L by rewrite ss; apply: genL; lia.
by move=> rounds; exact: (fl_unw_empty A f_abs f_sum N u0 aB gray U sq e0 gL memL headL e01 accuracy tol rounds n0 em ee erefl).
Qed.
