(* Property theorems: C84 (rounding errors of version A with uniform losses).  Only statements; proofs elsewhere. *)
From mathcomp Require Import all_ssreflect all_algebra complex ring zify.
From Verif Require Import Base SpecStates Combi SpecPerm SpecBS ModelStates ModelPerm ModelDist ProofDist1 SpecProb ModelGcc ModelGccB ModelFloat ModelFloatGcc ModelFloatGccU SpecFloat SpecFloatGcc SpecFloatGccU ProofGccB2 LemFloatGccU.
Set Implicit Arguments.
Unset Strict Implicit.
Unset Printing Implicit Defensive.
Import Order.TTheory GRing.Theory Num.Theory.
Local Open Scope ring_scope.
Local Open Scope py_scope.

(* C84: with exact operations the initialisation, the recorded values and the layers are those of the model with exact numbers *)
Theorem C84_exact_arithmetic :
  forall (R : rcfType) (gray : nat -> seq nat) (fuel : nat) (s t : seq nat) (x : ugcc R) (p : R) (du : seq R * seq R),
  let A := exact_arith (ComplexField.complex_numFieldType R) in let B := exact_arith R in let f_abs := @py_abs R in let f_sum := @py_sum R in
  [/\ fl_ugcc_start B fuel s x = ugcc_start fuel s x,
      fl_record_output B x t p du = record_output x t p du
    & fl_u_new_layer A B f_abs f_sum gray fuel x = u_new_layer gray fuel x].
Proof. exact C84_exact_arithmetic_lemma. Qed.
Print Assumptions C84_exact_arithmetic.

(* C84: k samples with uniform losses.  The stored matrix V is up to eps the unitary matrix U, random() has N equally likely values.  Expectations of any test f (0 if an error is raised) differ from those of k exact independent samples by at most k ugcc_error *)
Theorem C84_sampler :
  forall (R : rcfType) (u eps : R) (A : arith (ComplexField.complex_numFieldType R)) (B : arith R) (f_abs : (ComplexField.complex_numFieldType R) -> R) (f_sum : seq R -> R) (N : nat)
    (gray : nat -> seq nat) (m : nat) (U V : seq (seq (ComplexField.complex_numFieldType R))) (s : seq nat) (eta : R) (k : nat) (f : seq (seq nat) -> R),
  0 <= u -> accurate (u%:C)%C A -> accurate u B -> (forall z, `|f_abs z - py_abs z| <= u * py_abs z) -> accurate_sum u f_sum ->
  (0 < N)%N -> unitary m U -> is_square m V -> 0 <= eps ->
  (forall j i, (j < m)%N -> (i < m)%N -> `|ent V j i - ent U j i| <= (eps%:C)%C) ->
  size s = m -> (0 < m)%N -> gray_ok gray (sumn s) -> (2 * m + 1 + code_number s)%:R * u <= 8%:R^-1 -> 0 <= eta <= 1 ->
  (forall L, 0 <= f L <= 1) ->
  exists f0, forall (fuel : nat) (x : ugcc R), (f0 <= fuel)%N -> calc_matrix (g_calc (ug_gcc x)) = V -> ug_eta x = eta ->
  exists v, has_exp (on_ok (fun z => f z.1)) (fl_ugcc_simulate A B f_abs f_sum gray fuel N s k x) v /\
    `|v - iid_exp (lcomps m (sumn s)) (uniform_loss_prob U s eta) k f| <= k%:R * ugcc_error u eps N m s.
Proof. exact C84_sampler_lemma. Qed.
Print Assumptions C84_sampler.

Example C84_example (R : rcfType) (N m : nat) (s : seq nat) (l : nat) : (* without rounding the recorded values are exact *)
  [/\ weighted_error (0 : R) 0 m s l = 0, recorded_error (0 : R) 0 m s l = 0
    & ugcc_error (0 : R) 0 N m s = (sumn s)%:R * (2%:R * m%:R / N%:R) + (sumn s)%:R / N%:R].
Proof.
have e i : entry_error (0 : R) 0 m s i = 0 by rewrite /entry_error addr0 !expr1n subrr !mul0r addr0.
have r : recorded_error (0 : R) 0 m s l = 0 by rewrite /recorded_error e mulr0 addr0 expr1n mulr1 subrr.
split=> //; first by rewrite /weighted_error r /bin_weight_error !addr0 expr1n subrr addr0 !mulr1 subrr.
rewrite /ugcc_error /gcc_error /sel_error big1 ?add0r => [|i _]; last by rewrite e mulr0.
by rewrite addr0 expr1n subrr mulr0 add0r.
Qed.

(* C84: the probability that all k samples are returned *)
Theorem C84_seldom_fails :
  forall (R : rcfType) (u eps : R) (A : arith (ComplexField.complex_numFieldType R)) (B : arith R) (f_abs : (ComplexField.complex_numFieldType R) -> R) (f_sum : seq R -> R) (N : nat)
    (gray : nat -> seq nat) (m : nat) (U V : seq (seq (ComplexField.complex_numFieldType R))) (s : seq nat) (eta : R) (k : nat),
  0 <= u -> accurate (u%:C)%C A -> accurate u B -> (forall z, `|f_abs z - py_abs z| <= u * py_abs z) -> accurate_sum u f_sum ->
  (0 < N)%N -> unitary m U -> is_square m V -> 0 <= eps ->
  (forall j i, (j < m)%N -> (i < m)%N -> `|ent V j i - ent U j i| <= (eps%:C)%C) ->
  size s = m -> (0 < m)%N -> gray_ok gray (sumn s) -> (2 * m + 1 + code_number s)%:R * u <= 8%:R^-1 -> 0 <= eta <= 1 ->
  exists f0, forall (fuel : nat) (x : ugcc R), (f0 <= fuel)%N -> calc_matrix (g_calc (ug_gcc x)) = V -> ug_eta x = eta ->
  exists v, has_exp (on_ok (fun=> 1)) (fl_ugcc_simulate A B f_abs f_sum gray fuel N s k x) v /\ 1 - k%:R * ugcc_error u eps N m s <= v.
Proof. exact C84_seldom_fails_lemma. Qed.
Print Assumptions C84_seldom_fails.

(* C84: however the random numbers fall, the only error that can be raised is that of a selection beyond the end of a list; the samples are outcomes of the list, and both lists of probabilities are in every entry untouched or accurate *)
Theorem C84_collected_distribution :
  forall (R : rcfType) (u eps : R) (A : arith (ComplexField.complex_numFieldType R)) (B : arith R) (f_abs : (ComplexField.complex_numFieldType R) -> R) (f_sum : seq R -> R) (N : nat)
    (gray : nat -> seq nat) (m : nat) (U V : seq (seq (ComplexField.complex_numFieldType R))) (s : seq nat) (eta : R) (k : nat),
  0 <= u -> accurate (u%:C)%C A -> accurate u B -> (forall z, `|f_abs z - py_abs z| <= u * py_abs z) -> accurate_sum u f_sum ->
  (0 < N)%N -> unitary m U -> is_square m V -> 0 <= eps ->
  (forall j i, (j < m)%N -> (i < m)%N -> `|ent V j i - ent U j i| <= (eps%:C)%C) ->
  size s = m -> (0 < m)%N -> gray_ok gray (sumn s) -> (2 * m + 1 + code_number s)%:R * u <= 8%:R^-1 -> 0 <= eta <= 1 ->
  exists (L : seq (seq nat)) (f0 : nat), [/\ uniq L, L =i [pred t | (size t == m) && (sumn t <= sumn s)%N] & forall (fuel : nat) (x : ugcc R),
  (f0 <= fuel)%N -> calc_matrix (g_calc (ug_gcc x)) = V -> ug_eta x = eta ->
  generate_possible_states fuel (Posz (sumn s)) (Posz (size s)) true = Ok L /\
  always (fun y => y = Err IndexError \/ exists S x', [/\ y = Ok (S, x'), size S = k, all (mem L) S,
       size (ug_dist x') = size L /\ size (ug_unw x') = size L
     & forall j, (j < size L)%N ->
       ((ug_dist x')`_j = (if ug_missing x then -1 else 0) \/
          `|(ug_dist x')`_j - uniform_loss_prob U s eta (nth [::] L j)| <= weighted_error u eps m s (sumn (nth [::] L j))) /\
       ((ug_unw x')`_j = (if ug_missing x then -1 else 0) \/
          `|(ug_unw x')`_j - fixed_loss_prob U s (nth [::] L j)| <= recorded_error u eps m s (sumn (nth [::] L j)))])
    (fl_ugcc_simulate A B f_abs f_sum gray fuel N s k x)].
Proof. exact C84_collected_distribution_lemma. Qed.
Print Assumptions C84_collected_distribution.

(* C84: the returned list: entries untouched or accurate, and the computed total is close to the accuracy asked for *)
Theorem C84_distribution_up_to_accuracy :
  forall (R : rcfType) (u eps : R) (A : arith (ComplexField.complex_numFieldType R)) (B : arith R) (f_abs : (ComplexField.complex_numFieldType R) -> R) (f_sum : seq R -> R) (N : nat)
    (gray : nat -> seq nat) (m : nat) (U V : seq (seq (ComplexField.complex_numFieldType R))) (s : seq nat) (eta : R) (accuracy tol : R),
  0 <= u -> accurate (u%:C)%C A -> accurate u B -> (forall z, `|f_abs z - py_abs z| <= u * py_abs z) -> accurate_sum u f_sum ->
  (0 < N)%N -> unitary m U -> is_square m V -> 0 <= eps ->
  (forall j i, (j < m)%N -> (i < m)%N -> `|ent V j i - ent U j i| <= (eps%:C)%C) ->
  size s = m -> (0 < m)%N -> gray_ok gray (sumn s) -> (2 * m + 1 + code_number s)%:R * u <= 8%:R^-1 -> 0 <= eta <= 1 -> 
  exists (L : seq (seq nat)) (f0 : nat), [/\ uniq L, L =i [pred t | (size t == m) && (sumn t <= sumn s)%N] & forall (fuel : nat) (x : ugcc R),
  (f0 <= fuel)%N -> calc_matrix (g_calc (ug_gcc x)) = V -> ug_eta x = eta ->
  generate_possible_states fuel (Posz (sumn s)) (Posz (size s)) true = Ok L /\
  forall rounds, always (fun y => y = Err OutOfFuel \/ y = Err IndexError \/ exists D x', [/\ y = Ok (D, x'), size D = size L,
       forall j, (j < size L)%N -> D`_j = (if ug_missing x then -1 else 0) \/
          `|D`_j - uniform_loss_prob U s eta (nth [::] L j)| <= weighted_error u eps m s (sumn (nth [::] L j))
     & Num.max (f_sub B accuracy (f_sum D)) 0 <= tol])
    (fl_compute_distribution A B f_abs f_sum gray fuel N accuracy tol rounds s x)].
Proof. exact C84_distribution_up_to_accuracy_lemma. Qed.
Print Assumptions C84_distribution_up_to_accuracy.

(* C84: the same for the unweighted list *)
Theorem C84_unweighted_up_to_accuracy :
  forall (R : rcfType) (u eps : R) (A : arith (ComplexField.complex_numFieldType R)) (B : arith R) (f_abs : (ComplexField.complex_numFieldType R) -> R) (f_sum : seq R -> R) (N : nat)
    (gray : nat -> seq nat) (m : nat) (U V : seq (seq (ComplexField.complex_numFieldType R))) (s : seq nat) (eta : R) (accuracy tol : R),
  0 <= u -> accurate (u%:C)%C A -> accurate u B -> (forall z, `|f_abs z - py_abs z| <= u * py_abs z) -> accurate_sum u f_sum ->
  (0 < N)%N -> unitary m U -> is_square m V -> 0 <= eps ->
  (forall j i, (j < m)%N -> (i < m)%N -> `|ent V j i - ent U j i| <= (eps%:C)%C) ->
  size s = m -> (0 < m)%N -> gray_ok gray (sumn s) -> (2 * m + 1 + code_number s)%:R * u <= 8%:R^-1 -> 0 <= eta <= 1 -> (0 < sumn s)%N ->
  exists (L : seq (seq nat)) (f0 : nat), [/\ uniq L, L =i [pred t | (size t == m) && (sumn t <= sumn s)%N] & forall (fuel : nat) (x : ugcc R),
  (f0 <= fuel)%N -> calc_matrix (g_calc (ug_gcc x)) = V -> ug_eta x = eta ->
  generate_possible_states fuel (Posz (sumn s)) (Posz (size s)) true = Ok L /\
  forall rounds, always (fun y => y = Err OutOfFuel \/ y = Err IndexError \/ exists D x', [/\ y = Ok (D, x'), size D = size L,
       forall j, (j < size L)%N -> D`_j = (if ug_missing x then -1 else 0) \/
          `|D`_j - fixed_loss_prob U s (nth [::] L j)| <= recorded_error u eps m s (sumn (nth [::] L j))
     & Num.max (f_sub B accuracy (f_div B (f_sum D) (Posz (sumn s)))) 0 <= tol])
    (fl_compute_unweighted A B f_abs f_sum gray fuel N accuracy tol rounds s x)].
Proof. exact C84_unweighted_up_to_accuracy_lemma. Qed.
Print Assumptions C84_unweighted_up_to_accuracy.

(* C84: once all entries are accurate the search for the distribution ends, if the tolerance of isclose is not below the errors *)
Theorem C84_complete_list_stops :
  forall (R : rcfType) (u eps : R) (B : arith R) (f_sum : seq R -> R) (m : nat) (U : seq (seq (ComplexField.complex_numFieldType R))) (s : seq nat) (eta accuracy : R)
    (L : seq (seq nat)) (D : seq R),
  0 <= u <= 1 -> 0 <= eps -> accurate u B -> accurate_sum u f_sum -> unitary m U -> size s = m -> 0 <= eta <= 1 -> accuracy <= 1 ->
  uniq L -> L =i [pred t | (size t == m) && (sumn t <= sumn s)%N] -> size D = size L ->
  (forall j, (j < size L)%N -> `|D`_j - uniform_loss_prob U s eta (nth [::] L j)| <= weighted_error u eps m s (sumn (nth [::] L j))) ->
  let W := \sum_(t <- L) weighted_error u eps m s (sumn t) in
  Num.max (f_sub B accuracy (f_sum D)) 0 <= (1 + u) * (((1 + u) ^+ size L - 1) * (1 + W) + W).
Proof. exact C84_complete_list_stops_lemma. Qed.
Print Assumptions C84_complete_list_stops.

(* C84: without particles the unweighted distribution raises, as with exact numbers *)
Theorem C84_unweighted_empty :
  forall (R : rcfType) (u eps : R) (A : arith (ComplexField.complex_numFieldType R)) (B : arith R) (f_abs : (ComplexField.complex_numFieldType R) -> R) (f_sum : seq R -> R) (N : nat)
    (gray : nat -> seq nat) (m : nat) (U V : seq (seq (ComplexField.complex_numFieldType R))) (s : seq nat) (eta : R) (accuracy tol : R),
  0 <= u -> accurate (u%:C)%C A -> accurate u B -> (forall z, `|f_abs z - py_abs z| <= u * py_abs z) -> accurate_sum u f_sum ->
  (0 < N)%N -> unitary m U -> is_square m V -> 0 <= eps ->
  (forall j i, (j < m)%N -> (i < m)%N -> `|ent V j i - ent U j i| <= (eps%:C)%C) ->
  size s = m -> (0 < m)%N -> gray_ok gray (sumn s) -> (2 * m + 1 + code_number s)%:R * u <= 8%:R^-1 -> 0 <= eta <= 1 -> sumn s = 0%N ->
  exists f0, forall (fuel : nat) (x : ugcc R), (f0 <= fuel)%N -> calc_matrix (g_calc (ug_gcc x)) = V -> ug_eta x = eta ->
  forall rounds, fl_compute_unweighted A B f_abs f_sum gray fuel N accuracy tol rounds s x = Ret (Err ZeroDivisionError).
Proof. exact C84_unweighted_empty_lemma. Qed.
Print Assumptions C84_unweighted_empty.
