(* Final forms of the lemmas behind the property theorems: C77 (rounding errors of version B of the samplers). *)
From mathcomp Require Import all_ssreflect all_algebra complex ring zify.
From Verif Require Import Base SpecStates Combi SpecPerm SpecBS ModelStates ModelPerm ModelDist ProofDist1 SpecProb ModelGcc ModelGccB ModelFloat ModelFloatGcc ModelFloatGccB SpecFloat SpecFloatGcc SpecFloatSub SpecFloatGccB BsNorm ProbMath ProofGcc1 ProofGccB2 ProofSample1 ProofFloat ProofFloat4 ProofFloatDist2 ProofFloatGccB3 ProofFloatGccB4.
Set Implicit Arguments.
Unset Strict Implicit.
Unset Printing Implicit Defensive.
Import Order.TTheory GRing.Theory Num.Theory.
Local Open Scope ring_scope.
Local Open Scope py_scope.

Lemma C77_exact_arithmetic_lemma :
  forall (R : rcfType) (fuel N n : nat) (b : gccb R) (p : seq R) (eta : R) (f_search : R -> seq R -> nat),
  let A := exact_arith (ComplexField.complex_numFieldType R) in let B := exact_arith R in let f_abs := @py_abs R in let f_sum := @py_sum R in
  [/\ fl_compute_pmf A B f_abs f_sum fuel b = compute_pmf fuel b,
      fl_ub_weights B n eta = ub_binomial_weights n eta,
      fl_choice_cdf B p = choice_cdf p &
      exists rejected : bool,
        np_choice p = (if rejected then Ret (Err ValueError)
          else Unif (fun v => Ret (Ok (find (fun c => v < c) (choice_cdf p))))) /\
        fl_np_choice B f_sum f_search N p = (if rejected then Ret (Err ValueError)
          else Int N (fun k => Ret (Ok (f_search (k%:R / N%:R) (choice_cdf p)))))].
Proof.
move=> R fuel N n b p eta f_search A B f_abs f_sum; split.
- exact: fl_compute_pmf_exact.
- exact: fl_ub_weights_exact.
- exact: fl_choice_cdf_exact.
exists (has (fun x => x < 0) p || (choice_tol R < `|py_sum p - 1|)); split; first by reflexivity.
rewrite /fl_np_choice fl_choice_cdf_exact; reflexivity.
Qed.

Lemma C77_binary_search_lemma :
  forall (R : rcfType), [/\ right_search (@npy_search R), right_search (fun (v : R) l => find (fun c => v < c) l) &
    forall (s1 s2 : R -> seq R -> nat) (v : R) (l : seq R), right_search s1 -> right_search s2 ->
      sorted (fun x y => x <= y) l -> s1 v l = s2 v l].
Proof.
by move=> R; split; [exact: npy_search_right|exact: find_right|exact: right_search_unique].
Qed.

Lemma C77_sampler_lemma :
  forall (R : rcfType) (u eps : R) (A : arith (ComplexField.complex_numFieldType R)) (B : arith R)
    (f_abs : (ComplexField.complex_numFieldType R) -> R) (f_sum f_check : seq R -> R) (f_search : R -> seq R -> nat) (fuel N m : nat)
    (U V : seq (seq (ComplexField.complex_numFieldType R))) (s : seq nat) (k : nat) (b : gccb R) (f : seq (seq nat) -> R),
  0 <= u -> accurate (u%:C)%C A -> accurate u B -> (forall z, `|f_abs z - py_abs z| <= u * py_abs z) ->
  accurate_sum u f_sum -> accurate_sum u f_check -> right_search f_search ->
  (0 < N)%N -> unitary m U -> is_square m V -> 0 <= eps ->
  (forall j i, (j < m)%N -> (i < m)%N -> `|ent V j i - ent U j i| <= (eps%:C)%C) ->
  size s = m -> (code_number s <= fuel)%N -> (9 * m + 4)%:R * u <= (2%:R ^+ 27)^-1 ->
  calc_matrix (b_calc b) = V -> (forall L, 0 <= f L <= 1) ->
  exists v, has_exp (on_ok (fun z => f z.1)) (fl_gccb_simulate A B f_abs f_sum f_check f_search fuel N s k b) v /\
    `|v - iid_exp (comps m (sumn s)) (bs_prob U s) k f| <= k%:R * gccb_error u eps N m s (sumn s).
Proof.
move=> R u eps A B f_abs f_sum f_check f_search fuel N m U V s k b f u0 aA aB ab as_ ac sr N0 un sq e0 UV ss fu small em f01.
have uo : unitary_on m U s by apply: (unitaryW un); rewrite ss.
by have [v [h _ e]] := fl_gccb_simulate_exp u0 aA aB ab as_ ac sr N0 (conj uo (unitary_entries un)) sq ss fu e0 UV small k f01 em; exists v.
Qed.

Lemma C77_uniform_losses_lemma :
  forall (R : rcfType) (u eps : R) (A : arith (ComplexField.complex_numFieldType R)) (B : arith R)
    (f_abs : (ComplexField.complex_numFieldType R) -> R) (f_sum f_check : seq R -> R) (f_search : R -> seq R -> nat) (fuel N m : nat)
    (U V : seq (seq (ComplexField.complex_numFieldType R))) (s : seq nat) (k : nat) (x : ugccb R) (eta : R) (f : seq (seq nat) -> R),
  0 <= u -> accurate (u%:C)%C A -> accurate u B -> (forall z, `|f_abs z - py_abs z| <= u * py_abs z) ->
  accurate_sum u f_sum -> accurate_sum u f_check -> right_search f_search ->
  (0 < N)%N -> unitary m U -> is_square m V -> 0 <= eps ->
  (forall j i, (j < m)%N -> (i < m)%N -> `|ent V j i - ent U j i| <= (eps%:C)%C) ->
  size s = m -> (code_number s <= fuel)%N -> (9 * m + 4)%:R * u <= (2%:R ^+ 27)^-1 ->
  0 <= eta <= 1 -> calc_matrix (b_calc (ub_b x)) = V -> ub_eta x = eta -> (forall L, 0 <= f L <= 1) ->
  exists v, has_exp (on_ok (fun z => f z.1)) (fl_ugccb_simulate A B f_abs f_sum f_check f_search fuel N s k x) v /\
    `|v - iid_exp (lcomps m (sumn s)) (uniform_loss_prob U s eta) k f| <= k%:R * ugccb_error u eps N m s.
Proof.
move=> R u eps A B f_abs f_sum f_check f_search fuel N m U V s k x eta f u0 aA aB ab as_ ac sr N0 un sq e0 UV ss fu small eta01 em ee f01.
have uo : unitary_on m U s by apply: (unitaryW un); rewrite ss.
by have [v [h _ e]] := fl_ugccb_simulate_exp u0 aA aB ab as_ ac sr N0 (conj uo (unitary_entries un)) sq ss fu e0 UV small eta01 k f01 em ee; exists v.
Qed.

Lemma C77_seldom_fails_lemma :
  forall (R : rcfType) (u eps : R) (A : arith (ComplexField.complex_numFieldType R)) (B : arith R)
    (f_abs : (ComplexField.complex_numFieldType R) -> R) (f_sum f_check : seq R -> R) (f_search : R -> seq R -> nat) (fuel N m : nat)
    (U V : seq (seq (ComplexField.complex_numFieldType R))) (s : seq nat) (k : nat) (b : gccb R) (x : ugccb R),
  0 <= u -> accurate (u%:C)%C A -> accurate u B -> (forall z, `|f_abs z - py_abs z| <= u * py_abs z) ->
  accurate_sum u f_sum -> accurate_sum u f_check -> right_search f_search ->
  (0 < N)%N -> unitary m U -> is_square m V -> 0 <= eps ->
  (forall j i, (j < m)%N -> (i < m)%N -> `|ent V j i - ent U j i| <= (eps%:C)%C) ->
  size s = m -> (code_number s <= fuel)%N -> (9 * m + 4)%:R * u <= (2%:R ^+ 27)^-1 ->
  (calc_matrix (b_calc b) = V ->
   exists v, has_exp (on_ok (fun=> 1)) (fl_gccb_simulate A B f_abs f_sum f_check f_search fuel N s k b) v /\
     1 - k%:R * gccb_error u eps N m s (sumn s) <= v) /\
  (0 <= ub_eta x <= 1 -> calc_matrix (b_calc (ub_b x)) = V ->
   exists v, has_exp (on_ok (fun=> 1)) (fl_ugccb_simulate A B f_abs f_sum f_check f_search fuel N s k x) v /\
     1 - k%:R * ugccb_error u eps N m s <= v).
Proof.
move=> R u eps A B f_abs f_sum f_check f_search fuel N m U V s k b x u0 aA aB ab as_ ac sr N0 un sq e0 UV ss fu small.
have f01 (L : seq (seq nat)) : 0 <= (1 : R) <= 1 by rewrite ler01 lexx.
have uo : unitary_on m U s by apply: (unitaryW un); rewrite ss.
split=> [em|eta01 em].
  have [v [h e]] := C77_sampler_lemma k (f := fun=> 1) u0 aA aB ab as_ ac sr N0 un sq e0 UV ss fu small em f01.
  exists v; split=> //; move: e; rewrite iid_exp_const ?ler_distl; first by case/andP.
  exact: bs_prob_norm.
have [v [h e]] := C77_uniform_losses_lemma k (f := fun=> 1) u0 aA aB ab as_ ac sr N0 un sq e0 UV ss fu small eta01 em erefl f01.
exists v; split=> //; move: e; rewrite iid_exp_const ?ler_distl; first by case/andP.
by rewrite big_lcomps uniform_loss_norm.
Qed.
