(* Final forms of the lemmas behind the property theorems: C53 (the wrapper of the R implementation). *)
From mathcomp Require Import all_ssreflect all_algebra complex ring zify.
From Verif Require Import Base SpecStates Combi SpecPerm SpecBS ModelStates ModelPerm ModelDist SpecProb ModelGcc ModelGccB ModelNet SpecGcc ModelBobs ModelLState ModelR SpecR PermMath ProbMath BsNorm LemGcc ProofLS6 ProofFixed4 ProofBobs4 ProofR1 ProofR2 ProofR3 ProofR4 ProofR5 Witness.
Set Implicit Arguments.
Unset Strict Implicit.
Unset Printing Implicit Defensive.
Import Order.TTheory GRing.Theory Num.Theory.
Local Open Scope ring_scope.
Local Open Scope py_scope.

Lemma C53_matrix_lemma :
  forall (R : rcfType) (r c : nat) (A : seq (seq (ComplexField.complex_numFieldType R))),
  (0 < r)%N -> is_rect r c A ->
  [/\ rm_rows (to_r_matrix A) = r, rm_cols (to_r_matrix A) = c,
      size (rm_values (to_r_matrix A)) = (r * c)%N
    & forall i j : nat, (i < r)%N -> (j < c)%N -> rm_get (to_r_matrix A) i j = ent A i j].
Proof.
by move=> R r c A; exact: to_r_matrixE.
Qed.

Lemma C53_first_columns_lemma :
  forall (R : rcfType) (r c n : nat) (M : seq (seq (ComplexField.complex_numFieldType R))),
  (0 < r)%N -> is_rect r c M ->
  first_columns M n = if (n <= c)%N then Ok [seq take n row | row <- M] else Err IndexError.
Proof.
by move=> R r c n M; exact: first_columnsE.
Qed.

Lemma C53_too_many_particles_lemma :
  forall (R : rcfType) (boson_sampler : rmatrix R -> nat -> bool -> rprog R (res (seq int * seq R * seq R))) (m k fuel : nat) (outs : seq (seq nat)) (M : seq (seq (ComplexField.complex_numFieldType R))) (s : seq nat),
  (0 < m)%N -> is_rect m m M -> (m < sumn s)%N ->
  [/\ r_simulate boson_sampler s k M = Ret (Err IndexError),
      find_probabilities boson_sampler fuel s outs M = Ret (Err IndexError)
    & find_random_states boson_sampler fuel s k M = Ret (Err IndexError)].
Proof.
move=> R bs m k fuel outs M s m0 sq lt.
have e : first_columns M (sumn s) = Err IndexError by rewrite (first_columnsE _ m0 sq) leqNgt lt.
by split; rewrite ?/r_simulate ?/find_probabilities ?/find_random_states e.
Qed.

Lemma C53_conversion_lemma :
  forall (k m n : nat) (V : seq int),
  (0 < m)%N -> (0 < k)%N -> size V = (k * n)%N ->
  (let! parts := np_array_split [seq x - 1 | x <- V] k in
   rmapM (fun p => mode_assignment_to_mode_occupation p (Posz m)) parts) =
  if all (fun x : int => 1 - Posz m <= x <= Posz m) V then
    Ok [seq [seq count (fun x : int => (x == Posz i.+1) || (x == Posz i.+1 - Posz m)) p | i <- iota 0 m] | p <- reshape (nseq k n) V]
  else Err IndexError.
Proof.
by move=> k m n V m0 k0 sV; exact: r_convertE.
Qed.

Lemma C53_conversion_of_modes_lemma :
  forall (k m n : nat) (V : seq int),
  (0 < m)%N -> (0 < k)%N -> size V = (k * n)%N -> all (fun x : int => 1 <= x <= Posz m) V ->
  (let! parts := np_array_split [seq x - 1 | x <- V] k in
   rmapM (fun p => mode_assignment_to_mode_occupation p (Posz m)) parts) =
  Ok (r_samples m n k V).
Proof.
by move=> k m n V m0 k0 sV aV; exact: r_convert_ok.
Qed.

Lemma C53_positions_ignored_lemma :
  forall (R : rcfType) (boson_sampler : rmatrix R -> nat -> bool -> rprog R (res (seq int * seq R * seq R))) (s s' : seq nat) (k : nat) (M : seq (seq (ComplexField.complex_numFieldType R))),
  size s = size s' -> sumn s = sumn s' -> r_simulate boson_sampler s k M = r_simulate boson_sampler s' k M.
Proof.
by move=> R bs s s' k M e1 e2; rewrite /r_simulate e1 e2.
Qed.

Lemma C53_no_samples_lemma :
  forall (R : rcfType) (boson_sampler : rmatrix R -> nat -> bool -> rprog R (res (seq int * seq R * seq R))) (s : seq nat) (M : seq (seq (ComplexField.complex_numFieldType R))),
  always (fun y => exists e, y = Err e) (r_simulate boson_sampler s 0 M).
Proof.
move=> R bs s M; rewrite /r_simulate; case: (first_columns M (sumn s)) => [A|e]; last by exists e.
rewrite rpbind_ok; apply: always_rbind; apply: always_impl (always_true _ (fun=> I)) => -[r|e] _ /=; last by exists e.
by exists ValueError.
Qed.

Lemma C53_sampler_exists_lemma :
  forall (R : rcfType), exists boson_sampler : rmatrix R -> nat -> bool -> rprog R (res (seq int * seq R * seq R)), r_sampler_ok boson_sampler.
Proof.
by move=> R; exists (@table_sampler R); exact: table_sampler_ok.
Qed.

Lemma C53_law_lemma :
  forall (R : rcfType) (boson_sampler : rmatrix R -> nat -> bool -> rprog R (res (seq int * seq R * seq R))) (m n : nat) (M : seq (seq (ComplexField.complex_numFieldType R))) (s : seq nat) (k : nat),
  r_sampler_ok boson_sampler -> (0 < n)%N -> (n <= m)%N -> unitary_on m M (first_modes m n) -> size s = m -> sumn s = n -> (0 < k)%N ->
  iid_samples (r_simulate boson_sampler s k M) k (is_state m n) (bs_prob M (first_modes m n)).
Proof.
move=> R bs m n M s k ok n0 nm uM sm ns k0; apply: (@iid_of_exp _ _ _ _ (comps m n)); first exact: comps_uniq.
  by move=> t; rewrite mem_comps.
by move=> f; exact: r_simulate_exp.
Qed.

Lemma C53_exact_for_first_modes_lemma :
  forall (R : rcfType) (boson_sampler : rmatrix R -> nat -> bool -> rprog R (res (seq int * seq R * seq R))) (m n : nat) (M : seq (seq (ComplexField.complex_numFieldType R))) (k : nat),
  r_sampler_ok boson_sampler -> (0 < n)%N -> (n <= m)%N -> unitary m M -> (0 < k)%N ->
  iid_samples (r_simulate boson_sampler (first_modes m n) k M) k (is_state m n) (bs_prob M (first_modes m n)).
Proof.
move=> R bs m n M k ok n0 nm uM k0; apply: C53_law_lemma => //; last exact: first_sum.
  by apply: unitaryW => //; rewrite first_size.
exact: first_size.
Qed.

Lemma C53_never_fails_lemma :
  forall (R : rcfType) (boson_sampler : rmatrix R -> nat -> bool -> rprog R (res (seq int * seq R * seq R))) (m n : nat) (M : seq (seq (ComplexField.complex_numFieldType R))) (s : seq nat) (k : nat),
  r_sampler_ok boson_sampler -> (0 < n)%N -> (n <= m)%N -> unitary_on m M (first_modes m n) -> size s = m -> sumn s = n -> (0 < k)%N ->
  always (fun y => exists L, [/\ y = Ok (L, M), size L = k & forall t, t \in L -> is_state m n t])
    (r_simulate boson_sampler s k M).
Proof.
by move=> R bs m n M s k ok n0 nm uM sm ns k0; exact: r_simulate_always.
Qed.

Lemma C53_positions_refuted_lemma :
  forall (R : rcfType) (boson_sampler : rmatrix R -> nat -> bool -> rprog R (res (seq int * seq R * seq R))), r_sampler_ok boson_sampler ->
  has_exp (on_ok (fun x => (x.1 == [:: [:: 1; 0]]%N)%:R)) (r_simulate boson_sampler [:: 0; 1]%N 1 [:: [:: 1; 0]; [:: 0; 1]]) 1 /\
  bs_prob ([:: [:: 1; 0]; [:: 0; 1]] : seq (seq (ComplexField.complex_numFieldType R))) [:: 0; 1]%N [:: 1; 0]%N = 0.
Proof.
move=> R bs ok; have s0 : [:: 1; 0]%N = single 2 0 by rewrite /single incrE.
have s1 : [:: 0; 1]%N = single 2 1 by rewrite /single incrE.
pose I := [:: [:: 1; 0]; [:: 0; 1]] : seq (seq (ComplexField.complex_numFieldType R)).
split; last by rewrite s0 s1 bs_prob_single // /ent /= /nsq /= expr0n addr0.
have uI : unitary_on 2 I (first_modes 2 1).
  by have uI := @eye_unitary R 2; rewrite /np_eye /= in uI; exact: unitaryW.
have := C53_law_lemma ok (isT : 0 < 1)%N (isT : 1 <= 2)%N uI (erefl : size [:: 0; 1]%N = 2%N) (erefl : sumn [:: 0; 1]%N = 1%N) (isT : 0 < 1)%N.
move=> /(_ [:: [:: 1; 0]%N]); rewrite /= big_seq1 /first_modes /= s0 bs_prob_single // /ent /= /nsq /=.
by rewrite expr0n addr0 expr1n.
Qed.

Lemma C53_find_probabilities_lemma :
  forall (R : rcfType) (boson_sampler : rmatrix R -> nat -> bool -> rprog R (res (seq int * seq R * seq R))) (m n : nat) (M : seq (seq (ComplexField.complex_numFieldType R))) (s : seq nat) (outs : seq (seq nat)) (fuel : nat),
  r_sampler_ok boson_sampler -> (0 < n)%N -> (n <= m)%N -> unitary_on m M (first_modes m n) -> size s = m -> sumn s = n ->
  always (fun y => (exists2 d, y = Ok d & perm_eq [seq x.1 | x <- d] outs /\ all (fun x => x.2 == bs_prob M (first_modes m n) x.1) d)
      \/ y = Err OutOfFuel)
    (find_probabilities boson_sampler fuel s outs M).
Proof.
by move=> R bs m n M s outs fuel ok n0 nm uM sm ns; exact: find_always.
Qed.

Lemma C53_find_probabilities_any_sampler_lemma :
  forall (R : rcfType) (boson_sampler : rmatrix R -> nat -> bool -> rprog R (res (seq int * seq R * seq R))) (A M : seq (seq (ComplexField.complex_numFieldType R))) (s : seq nat) (outs : seq (seq nat)) (fuel : nat) (Q : seq nat -> R -> Prop),
  first_columns M (sumn s) = Ok A ->
  always (if_ok (fun r => forall t x q, mode_assignment_to_mode_occupation [seq x - 1 | x <- r.1.1] (Posz (size s)) = Ok t -> r.2 = x :: q -> Q t x))
    (boson_sampler (to_r_matrix A) 1%N true) ->
  always (if_ok (fun d => forall x, x \in d -> x.1 \in outs /\ Q x.1 x.2)) (find_probabilities boson_sampler fuel s outs M).
Proof.
by move=> R bs A M s outs fuel Q hA al; rewrite /find_probabilities hA rpbind_ok; exact: find_any.
Qed.

Lemma C53_random_states_any_sampler_lemma :
  forall (R : rcfType) (boson_sampler : rmatrix R -> nat -> bool -> rprog R (res (seq int * seq R * seq R))) (A M : seq (seq (ComplexField.complex_numFieldType R))) (s : seq nat) (count fuel : nat) (Q : seq nat -> R -> Prop),
  first_columns M (sumn s) = Ok A ->
  always (if_ok (fun r => forall t x q, mode_assignment_to_mode_occupation [seq x - 1 | x <- r.1.1] (Posz (size s)) = Ok t -> r.2 = x :: q -> Q t x))
    (boson_sampler (to_r_matrix A) 1%N true) ->
  always (if_ok (fun d => forall x, x \in d -> Q x.1 x.2)) (find_random_states boson_sampler fuel s count M).
Proof.
move=> R bs A M s count fuel Q hA al; rewrite /find_random_states hA rpbind_ok; case: (states_cap s count) => [c|e] //.
by rewrite rpbind_ok; exact: random_any.
Qed.

Lemma C53_find_probabilities_terminates_lemma :
  forall (R : rcfType) (boson_sampler : rmatrix R -> nat -> bool -> rprog R (res (seq int * seq R * seq R))) (m n : nat) (M : seq (seq (ComplexField.complex_numFieldType R))) (s : seq nat) (outs : seq (seq nat)) (fuel : nat),
  r_sampler_ok boson_sampler -> (0 < n)%N -> (n <= m)%N -> unitary_on m M (first_modes m n) -> size s = m -> sumn s = n -> uniq outs -> all (is_state m n) outs ->
  exists2 v, has_exp (on_ok (fun=> 1)) (find_probabilities boson_sampler fuel.+1 s outs M) v
    & 1 - \sum_(t <- outs) (1 - bs_prob M (first_modes m n) t) ^+ fuel <= v <= 1.
Proof.
by move=> R bs m n M s outs fuel ok n0 nm uM sm ns; exact: find_terminates.
Qed.

Lemma C53_find_probabilities_never_returns_lemma :
  forall (R : rcfType) (boson_sampler : rmatrix R -> nat -> bool -> rprog R (res (seq int * seq R * seq R))) (m n : nat) (M : seq (seq (ComplexField.complex_numFieldType R))) (s : seq nat) (outs : seq (seq nat)) (fuel : nat),
  r_sampler_ok boson_sampler -> (0 < n)%N -> (n <= m)%N -> unitary_on m M (first_modes m n) -> size s = m -> sumn s = n -> ~~ (uniq outs && all (is_state m n) outs) ->
  always (fun y => y = Err OutOfFuel) (find_probabilities boson_sampler fuel s outs M).
Proof.
by move=> R bs m n M s outs fuel ok n0 nm uM sm ns; exact: find_never.
Qed.

Lemma C53_find_probabilities_zero_lemma :
  forall (R : rcfType) (boson_sampler : rmatrix R -> nat -> bool -> rprog R (res (seq int * seq R * seq R))) (m n : nat) (M : seq (seq (ComplexField.complex_numFieldType R))) (s : seq nat) (outs : seq (seq nat)) (fuel : nat) (t : seq nat),
  r_sampler_ok boson_sampler -> (0 < n)%N -> (n <= m)%N -> unitary_on m M (first_modes m n) -> size s = m -> sumn s = n -> t \in outs -> bs_prob M (first_modes m n) t = 0 ->
  has_exp (on_ok (fun=> 1)) (find_probabilities boson_sampler fuel s outs M) 0.
Proof.
by move=> R bs m n M s outs fuel t ok n0 nm uM sm ns; exact: find_zero.
Qed.

Lemma C53_random_states_lemma :
  forall (R : rcfType) (boson_sampler : rmatrix R -> nat -> bool -> rprog R (res (seq int * seq R * seq R))) (m n : nat) (M : seq (seq (ComplexField.complex_numFieldType R))) (s : seq nat) (count fuel : nat),
  r_sampler_ok boson_sampler -> (0 < n)%N -> (n <= m)%N -> unitary_on m M (first_modes m n) -> size s = m -> sumn s = n ->
  always (fun y => (exists2 d, y = Ok d &
      [/\ uniq [seq x.1 | x <- d], forall t, t \in [seq x.1 | x <- d] -> is_state m n t,
          all (fun x => x.2 == bs_prob M (first_modes m n) x.1) d,
          (minn count (size (comps m n)) <= size d)%N & close_to_1 (\sum_(x <- d) x.2)]) \/ y = Err OutOfFuel)
    (find_random_states boson_sampler fuel s count M).
Proof.
move=> R bs m n M s count fuel ok n0 nm uM sm ns.
apply: always_impl (random_always ok n0 nm uM sm ns count fuel) => _ [[d -> [h1 h2 h3 h4 h5]]|->]; last by right.
by left; exists d => //; split=> // t /h2; rewrite mem_comps.
Qed.

Lemma C53_random_states_terminates_lemma :
  forall (R : rcfType) (boson_sampler : rmatrix R -> nat -> bool -> rprog R (res (seq int * seq R * seq R))) (m n : nat) (M : seq (seq (ComplexField.complex_numFieldType R))) (s : seq nat) (count fuel : nat),
  r_sampler_ok boson_sampler -> (0 < n)%N -> (n <= m)%N -> unitary_on m M (first_modes m n) -> size s = m -> sumn s = n ->
  let S := [seq t <- comps m n | bs_prob M (first_modes m n) t != 0] in
  (minn count (size (comps m n)) <= size S)%N ->
  exists2 v, has_exp (on_ok (fun=> 1)) (find_random_states boson_sampler fuel.+1 s count M) v
    & 1 - \sum_(t <- S) (1 - bs_prob M (first_modes m n) t) ^+ fuel <= v <= 1.
Proof.
move=> R bs m n M s count fuel ok n0 nm uM sm ns S le; eexists; first exact: (random_law ok n0 nm uM sm ns).
exact: random_terminates.
Qed.

Lemma C53_random_states_never_returns_lemma :
  forall (R : rcfType) (boson_sampler : rmatrix R -> nat -> bool -> rprog R (res (seq int * seq R * seq R))) (m n : nat) (M : seq (seq (ComplexField.complex_numFieldType R))) (s : seq nat) (count fuel : nat),
  r_sampler_ok boson_sampler -> (0 < n)%N -> (n <= m)%N -> unitary_on m M (first_modes m n) -> size s = m -> sumn s = n ->
  (size [seq t <- comps m n | (bs_prob M (first_modes m n) t != 0)%R] < minn count (size (comps m n)))%N ->
  has_exp (on_ok (fun=> 1)) (find_random_states boson_sampler fuel s count M) 0.
Proof.
move=> R bs m n M s count fuel ok n0 nm uM sm ns lt; have := random_law ok n0 nm uM sm ns count fuel (fun=> 1).
by rewrite random_zero.
Qed.

Lemma C53_random_states_number_refuted_lemma :
  forall (R : rcfType) (boson_sampler : rmatrix R -> nat -> bool -> rprog R (res (seq int * seq R * seq R))) (fuel : nat), r_sampler_ok boson_sampler ->
  always (fun y => (exists2 d, y = Ok d & size d = 2%N) \/ y = Err OutOfFuel)
    (find_random_states boson_sampler fuel [:: 1; 0]%N 1 (splitter R)) /\
  exists2 v, has_exp (on_ok (fun=> 1)) (find_random_states boson_sampler 4 [:: 1; 0]%N 1 (splitter R)) v & 2%:R / 3%:R <= v.
Proof.
move=> R bs fuel ok; have u : unitary_on 2 (splitter R) (first_modes 2 1) by apply: unitaryW => //; exact: splitter_unitary.
have s0 : [:: 1; 0]%N = single 2 0 by rewrite /single incrE.
have s1 : [:: 0; 1]%N = single 2 1 by rewrite /single incrE.
have p0 : bs_prob (splitter R) (first_modes 2 1) [:: 1; 0]%N = 9%:R / 25%:R.
  by rewrite /first_modes /= s0 bs_prob_single // splitter_real /ent /= /nsq /=; field; rewrite ?pnatr_eq0.
have p1 : bs_prob (splitter R) (first_modes 2 1) [:: 0; 1]%N = 16%:R / 25%:R.
  by rewrite /first_modes /= s0 s1 bs_prob_single // splitter_real /ent /= /nsq /=; field; rewrite ?pnatr_eq0.
have S2 : perm_eq (comps 2 1) [:: [:: 1; 0]; [:: 0; 1]]%N.
  by vm_compute.
split.
  apply: always_impl (C53_random_states_lemma 1 fuel ok (isT : 0 < 1)%N (isT : 1 <= 2)%N u (erefl : size [:: 1; 0]%N = 2%N) (erefl : sumn [:: 1; 0]%N = 1%N)) => _ [[d -> [h1 h2 h3 h4 h5]]|->]; last by right.
  left; exists d => //; apply/eqP; rewrite eqn_leq; apply/andP; split.
    rewrite -(size_map fst); have <- : size (comps 2 1) = 2%N by rewrite (perm_size S2).
    apply: uniq_leq_size => // t /h2; by rewrite mem_comps.
  rewrite leqNgt; apply/negP; case: d h1 h2 h3 h4 h5 => [|x [|y d]] //.
  move=> _ /(_ x.1 (mem_head _ _)); rewrite -mem_comps (perm_mem S2) !inE big_seq1 /= andbT => xS /eqP -> _ + _.
  have t0 : (0 : R) < 10%:R by rewrite ltr0n.
  have h k : ((10%:R : R) ^+ k.+1)^-1 <= 10%:R^-1.
    by rewrite lef_pinv ?posrE ?exprn_gt0 // -[X in X <= _]expr1 ler_weexpn2l // ler1n.
  have b : (10%:R ^+ 8)^-1 + (10%:R ^+ 5)^-1 < 9%:R / 25%:R :> R.
    apply: (@le_lt_trans _ _ (10%:R^-1 + 10%:R^-1)); first by apply: ler_add; exact: h.
    have -> : 10%:R^-1 + 10%:R^-1 = 5%:R / 25%:R :> R by field.
    by rewrite ltr_pmul2r ?invr_gt0 ?ltr0n // ltr_nat.
  apply/negP; rewrite /close_to_1 -ltNge; apply: lt_le_trans b _.
  have e0 : 1 - 9%:R / 25%:R = 16%:R / 25%:R :> R by field.
  have e1 : 1 - 16%:R / 25%:R = 9%:R / 25%:R :> R by field.
  rewrite distrC; case/orP: xS => /eqP ->; rewrite ?p0 ?p1 ?e0 ?e1 ger0_norm ?divr_ge0 ?ler0n //.
  by rewrite ler_pmul2r ?invr_gt0 ?ltr0n // ler_nat.
have S2' : perm_eq [seq t <- comps 2 1 | bs_prob (splitter R) (first_modes 2 1) t != 0] [:: [:: 1; 0]; [:: 0; 1]]%N.
  apply: perm_trans (perm_filter _ S2) _; rewrite /= p0 p1 !mulf_eq0 !invr_eq0 !pnatr_eq0 /=.
  by [].
have [|v ev /andP [lv _]] := C53_random_states_terminates_lemma (count := 1) 3 ok (isT : 0 < 1)%N (isT : 1 <= 2)%N u (erefl : size [:: 1; 0]%N = 2%N) (erefl : sumn [:: 1; 0]%N = 1%N).
  by rewrite (perm_size S2') (leq_trans (geq_minl _ _)).
exists v => //; apply: le_trans lv; rewrite (perm_big _ S2') big_cons big_seq1 /= p0 p1.
have -> : 1 - ((1 - 9%:R / 25%:R) ^+ 3 + (1 - 16%:R / 25%:R) ^+ 3) = 3%:R * (9%:R / 25%:R) * (16%:R / 25%:R) :> R by field.
have -> : 3%:R * (9%:R / 25%:R) * (16%:R / 25%:R) = (2%:R + 46%:R / 625%:R) / 3%:R :> R by field.
by rewrite ler_pmul2r ?invr_gt0 ?ltr0n // ler_addl divr_ge0 ?ler0n.
Qed.
