(* Final forms of the lemmas behind the property theorems: C75 (rounding errors of the samplers). *)
From mathcomp Require Import all_ssreflect all_algebra complex ring zify.
From Verif Require Import Base SpecStates Combi SpecPerm SpecBS ModelStates ModelPerm ModelDist ProofDist1 SpecProb ModelGcc ModelFloat ModelFloatGcc SpecFloat SpecFloatGcc BsNorm ProbMath ProofGcc1 ProofSample1 ProofFloat ProofFloat4 ProofFloatGcc1 ProofFloatGcc3 ProofFloatGcc4.
Set Implicit Arguments.
Unset Strict Implicit.
Unset Printing Implicit Defensive.
Import Order.TTheory GRing.Theory Num.Theory.
Local Open Scope ring_scope.
Local Open Scope py_scope.

Lemma C75_exact_arithmetic_lemma :
  forall (R : rcfType) (gray : nat -> seq nat) (fuel : nat) (g : gcc R) (v acc : R) (i : nat) (l : seq R),
  let A := exact_arith (ComplexField.complex_numFieldType R) in let B := exact_arith R in let f_abs := @py_abs R in let f_sum := @py_sum R in
  [/\ fl_new_layer A B f_abs f_sum gray fuel g = new_layer gray fuel g,
      fl_ma_new_layer A B f_abs f_sum gray fuel g = ma_new_layer gray fuel g
    & fl_cum_search B v acc i l = cum_search v acc i l].
Proof.
move=> R gray fuel g v acc i l A B f_abs f_sum.
split; [exact: fl_new_layer_exact|exact: fl_ma_new_layer_exact|exact: fl_cum_search_exact].
Qed.

Lemma C75_sampler_lemma :
  forall (R : rcfType) (u eps : R) (A : arith (ComplexField.complex_numFieldType R)) (B : arith R) (f_abs : (ComplexField.complex_numFieldType R) -> R) (f_sum : seq R -> R) (N : nat)
    (gray : nat -> seq nat) (fuel m : nat) (U V : seq (seq (ComplexField.complex_numFieldType R))) (s : seq nat) (k : nat) (g : gcc R) (f : seq (seq nat) -> R),
  0 <= u -> accurate (u%:C)%C A -> accurate u B -> (forall z, `|f_abs z - py_abs z| <= u * py_abs z) -> accurate_sum u f_sum ->
  (0 < N)%N -> unitary m U -> is_square m V -> 0 <= eps ->
  (forall j i, (j < m)%N -> (i < m)%N -> `|ent V j i - ent U j i| <= (eps%:C)%C) ->
  size s = m -> gray_ok gray (sumn s) -> (code_number s <= fuel)%N -> (2 * m + 1 + code_number s)%:R * u <= 8%:R^-1 ->
  calc_matrix (g_calc g) = V ->
  (forall L, 0 <= f L <= 1) ->
  exists v, has_exp (on_ok (fun z => f z.1)) (fl_gcc_simulate A B f_abs f_sum gray fuel N s k g) v /\
    `|v - iid_exp (comps m (sumn s)) (bs_prob U s) k f| <= k%:R * gcc_error u eps N m s.
Proof.
move=> R u eps A B f_abs f_sum N gray fuel m U V s k g f u0 aA aB ab as_ N0 un sq e0 UV ss gr fu small em f01.
have x4 : (1 + u) ^+ (2 * m + 1 + code_number s) <= 5%:R / 4%:R.
  have l2 : (2 * m + 1 + code_number s)%:R * u <= 2%:R^-1.
    by apply: le_trans small _; rewrite lef_pinv ?posrE ?ltr0n // ler_nat.
  rewrite -[_ ^+ _](subrK 1); apply: le_trans (ler_add (E_linear u0 l2) (lexx 1)) _.
  rewrite -mulrA; apply: le_trans (ler_add (ler_wpmul2l (ler0n R 2) small) (lexx 1)) _.
  by rewrite le_eqVlt; apply/orP; left; apply/eqP; field.
have [v [h _ e]] := fl_gcc_simulate_exp u0 aA aB ab as_ N0 un sq ss gr fu e0 UV x4 k f01 em.
by exists v.
Qed.

Lemma C75_mode_assignment_sampler_lemma :
  forall (R : rcfType) (u eps : R) (A : arith (ComplexField.complex_numFieldType R)) (B : arith R) (f_abs : (ComplexField.complex_numFieldType R) -> R) (f_sum : seq R -> R) (N : nat)
    (gray : nat -> seq nat) (fuel m : nat) (U V : seq (seq (ComplexField.complex_numFieldType R))) (s : seq nat) (k : nat) (g : gcc R) (f : seq (seq nat) -> R),
  0 <= u -> accurate (u%:C)%C A -> accurate u B -> (forall z, `|f_abs z - py_abs z| <= u * py_abs z) -> accurate_sum u f_sum ->
  (0 < N)%N -> unitary m U -> is_square m V -> 0 <= eps ->
  (forall j i, (j < m)%N -> (i < m)%N -> `|ent V j i - ent U j i| <= (eps%:C)%C) ->
  size s = m -> gray_ok gray (sumn s) -> (code_number s <= fuel)%N -> (2 * m + 1 + code_number s)%:R * u <= 8%:R^-1 ->
  calc_matrix (g_calc g) = V ->
  (0 < m)%N -> (forall L, 0 <= f L <= 1) ->
  exists v, has_exp (on_ok (fun z => f z.1)) (fl_ma_simulate A B f_abs f_sum gray fuel N s k g) v /\
    `|v - iid_exp (comps m (sumn s)) (bs_prob U s) k f| <= k%:R * gcc_error u eps N m s.
Proof.
move=> R u eps A B f_abs f_sum N gray fuel m U V s k g f u0 aA aB ab as_ N0 un sq e0 UV ss gr fu small em m0 f01.
have x4 : (1 + u) ^+ (2 * m + 1 + code_number s) <= 5%:R / 4%:R.
  have l2 : (2 * m + 1 + code_number s)%:R * u <= 2%:R^-1.
    by apply: le_trans small _; rewrite lef_pinv ?posrE ?ltr0n // ler_nat.
  rewrite -[_ ^+ _](subrK 1); apply: le_trans (ler_add (E_linear u0 l2) (lexx 1)) _.
  rewrite -mulrA; apply: le_trans (ler_add (ler_wpmul2l (ler0n R 2) small) (lexx 1)) _.
  by rewrite le_eqVlt; apply/orP; left; apply/eqP; field.
have [v [h _ e]] := fl_ma_simulate_exp u0 aA aB ab as_ N0 un sq ss gr fu e0 UV x4 k m0 f01 em.
by exists v.
Qed.

Lemma C75_seldom_fails_lemma :
  forall (R : rcfType) (u eps : R) (A : arith (ComplexField.complex_numFieldType R)) (B : arith R) (f_abs : (ComplexField.complex_numFieldType R) -> R) (f_sum : seq R -> R) (N : nat)
    (gray : nat -> seq nat) (fuel m : nat) (U V : seq (seq (ComplexField.complex_numFieldType R))) (s : seq nat) (k : nat) (g : gcc R),
  0 <= u -> accurate (u%:C)%C A -> accurate u B -> (forall z, `|f_abs z - py_abs z| <= u * py_abs z) -> accurate_sum u f_sum ->
  (0 < N)%N -> unitary m U -> is_square m V -> 0 <= eps ->
  (forall j i, (j < m)%N -> (i < m)%N -> `|ent V j i - ent U j i| <= (eps%:C)%C) ->
  size s = m -> gray_ok gray (sumn s) -> (code_number s <= fuel)%N -> (2 * m + 1 + code_number s)%:R * u <= 8%:R^-1 ->
  calc_matrix (g_calc g) = V ->
  exists v, has_exp (on_ok (fun=> 1)) (fl_gcc_simulate A B f_abs f_sum gray fuel N s k g) v /\ 1 - k%:R * gcc_error u eps N m s <= v.
Proof.
move=> R u eps A B f_abs f_sum N gray fuel m U V s k g u0 aA aB ab as_ N0 un sq e0 UV ss gr fu small em.
have f01 (L : seq (seq nat)) : 0 <= (1 : R) <= 1 by rewrite ler01 lexx.
have [v [h e]] := C75_sampler_lemma k (f := fun=> 1) u0 aA aB ab as_ N0 un sq e0 UV ss gr fu small em f01.
exists v; split=> //; move: e; rewrite iid_exp_const ?ler_distl; first by case/andP.
by apply: bs_prob_norm; apply: (unitaryW un); rewrite ss.
Qed.

Lemma C75_selection_in_range_lemma :
  forall (R : rcfType) (B : arith R) (N k : nat) (pmf : seq R),
  (forall x, 0 < x -> f_mul B (k%:R / N%:R) x < x) ->
  let f_sum := foldl (f_add B) 0 in
  let i := fl_cum_search B (f_mul B (k%:R / N%:R) (f_sum pmf)) 0 0 pmf in
  (0 < f_sum pmf -> (i < size pmf)%N) /\
  (all (fun x => x == 0) pmf -> f_add B 0 0 = 0 -> f_mul B (k%:R / N%:R) 0 = 0 -> i = size pmf).
Proof.
move=> R B N k pmf h f_sum; split=> [s0|al a0 m0].
  have ne : pmf != [::] by move: s0; rewrite /f_sum; case: (pmf) => //; rewrite ltxx.
  by have := fl_search_lt 0 (h _ s0); rewrite ne orbT add0n => /(_ isT) /andP[_ H]; exact: H.
have z l : all (fun x => x == 0) l -> f_sum l = 0.
  by elim: l => //= x l IH /andP[/eqP -> /IH]; rewrite /f_sum /= a0.
rewrite (z _ al) m0 fl_search_end // => j _; rewrite -[foldl _ _ _]/(f_sum _) z //.
by apply/allP => x /mem_take; move/allP: al; apply.
Qed.

Lemma C75_index_error_refuted_lemma :
  forall (R : rcfType) (u : R) (k : nat) (p : R),
  0 < u -> u * k%:R >= 1 -> 0 < p ->
  exists (B : arith R) (f_sum : seq R -> R), [/\ accurate u B, accurate_sum u f_sum &
    forall g : gcc R, dget (g_pmfs g) (g_key g) = Some [:: p] ->
    fl_sample_with B f_sum k.+1 g k = Err IndexError].
Proof.
move=> R u k p u0 uk p0.
pose f_sum (l : seq R) := if l is [::] then 0 else (1 + u) * \sum_(x <- l) x.
exists (exact_arith R), f_sum; split.
- exact: exact_accurate (ltW u0).
- case=> [|x l]; first by rewrite /= big_nil subrr normr0 expr0 subrr mul0r.
  rewrite /f_sum mulrDl mul1r addrC addKr normrM (ger0_norm (ltW u0)).
  have E1 : u <= (1 + u) ^+ size (x :: l) - 1.
    rewrite /= exprS mulrDl mul1r -addrA [_ - 1]addrC addrA -[X in X <= _]add0r ler_add //.
      by rewrite subr_ge0 exprn_ege1 // ler_addl (ltW u0).
    by rewrite ler_pmulr // exprn_ege1 // ler_addl (ltW u0).
  apply: ler_pmul => //; [exact: ltW|exact: ler_norm_sum].
move=> g E.
have H : fl_cum_search (exact_arith R) (f_mul (exact_arith R) (k%:R / k.+1%:R) (f_sum [:: p])) 0 0 [:: p] = 1%N.
  rewrite /= add0r big_seq1 ltNge; case: leP => // h; exfalso; move: h; rewrite ltNge => /negP; apply.
  rewrite mulrA -[X in X <= _]mul1r ler_pmul2r // mulrAC ler_pdivl_mulr ?ltr0n // mul1r.
  by rewrite mulrDr mulr1 -addn1 natrD ler_add2l mulrC.
by rewrite /fl_sample_with /dget_res E; cbn [rbind]; rewrite H.
Qed.
