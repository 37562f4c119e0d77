(* Property theorems: C26-C34 (samplers).  Only statements; proofs elsewhere. *)
From mathcomp Require Import all_ssreflect all_algebra complex.
From Verif Require Import Base ProofDist1 SpecStates SpecPerm SpecBS ModelStates ModelPerm ModelDist SpecProb ModelGcc ModelGccB SpecGcc ProbMath LemGcc BsNorm Witness.
Set Implicit Arguments.
Unset Strict Implicit.
Unset Printing Implicit Defensive.
Import Order.TTheory GRing.Theory Num.Theory.
Local Open Scope ring_scope.

(* C26: the index found for u is the interval of u, and has positive weight *)
Theorem C26_cumulative_search :
  forall (R : rcfType) (l : seq R) (u : R),
  all (fun x => 0 <= x) l -> 0 < \sum_(x <- l) x -> 0 <= u < 1 ->
  let total := py_sum l in
  let i := cum_search (u * total) 0 0 l in
  [/\ (i < size l)%N, 0 < l`_i
    & forall k, (k < size l)%N ->
      (\sum_(j < k) l`_j / total <= u < \sum_(j < k.+1) l`_j / total) = (i == k)].
Proof. exact C26_cumulative_search_lemma. Qed.
Print Assumptions C26_cumulative_search.

Example C26_example (R : rcfType) :
  cum_search ((2%:R^-1 : R) * py_sum [:: 1; 0; 3%:R]) 0 0 [:: 1; 0; 3%:R] = 2%N.
Proof.
have h01 : 0 <= (2%:R^-1 : R) < 1 by rewrite invr_ge0 ler0n invf_lt1 ?ltr0n // ltr1n.
have sl : \sum_(x <- [:: 1; 0; 3%:R]) x = 4%:R :> R by rewrite !big_cons big_nil addr0 add0r -[1]/(1%:R) -natrD.
have [||_ _ H] := C26_cumulative_search (l := [:: 1; 0; 3%:R]) _ _ h01; rewrite ?sl ?ltr0n //=.
  by rewrite ler01 ler0n lexx.
have t : py_sum [:: 1; 0; 3%:R] = 4%:R :> R by rewrite /py_sum /= add0r addr0 -[1]/(1%:R) -natrD.
apply/eqP; rewrite -(H 2%N) // t !big_ord_recl !big_ord0 /= !addr0 !mul0r !add0r ?addr0 -?mulrDl.
have -> : 1 + 3%:R = 4%:R :> R by rewrite -[1]/(1%:R) -natrD.
by rewrite divff ?pnatr_eq0 // mul1r lef_pinv ?posrE ?ltr0n // ler_nat invf_lt1 ?ltr0n // ltr1n.
Qed.

(* C26: index k is selected with probability l_k / total *)
Theorem C26_selection_probability :
  forall (R : rcfType) (l : seq R) (k : nat),
  all (fun x => 0 <= x) l -> 0 < \sum_(x <- l) x ->
  has_exp (fun i => (i == k)%:R) (Unif (fun u => Ret (cum_search (u * py_sum l) 0 0 l)))
    (l`_k / \sum_(x <- l) x).
Proof. exact C26_selection_probability_lemma. Qed.
Print Assumptions C26_selection_probability.

Example C26_probability_example (R : rcfType) :
  has_exp (fun i : nat => (i == 2)%N%:R : R) (Unif (fun u => Ret (cum_search (u * py_sum [:: 1; 0; 3%:R]) 0 0 [:: 1; 0; 3%:R])))
    (3%:R / 4%:R).
Proof.
have sl : \sum_(x <- [:: 1; 0; 3%:R]) x = 4%:R :> R by rewrite !big_cons big_nil addr0 add0r -[1]/(1%:R) -natrD.
by rewrite -sl; apply: C26_selection_probability; rewrite ?sl ?ltr0n //= ler01 ler0n lexx.
Qed.

(* C26: numpy's choice rejects lists with a negative entry or a sum further than 2^-26 from 1, and otherwise returns k with probability p_k / sum *)
Theorem C26_numpy_choice_any_list :
  forall (R : rcfType) (p : seq R) (k : nat),
  (has (fun x => x < 0) p || (1 < 2%:R ^+ 26 * `|\sum_(x <- p) x - 1|) -> np_choice p = Ret (Err ValueError)) /\
  (all (fun x => 0 <= x) p -> 2%:R ^+ 26 * `|\sum_(x <- p) x - 1| <= 1 ->
     has_exp (on_ok (fun i => (i == k)%:R)) (np_choice p) (p`_k / \sum_(x <- p) x)).
Proof. exact C26_numpy_choice_any_list_lemma. Qed.
Print Assumptions C26_numpy_choice_any_list.

(* C26: numpy.random.choice on a distribution never fails and selects index k with probability w_k *)
Theorem C26_numpy_choice :
  forall (R : rcfType) (w : seq R) (k : nat),
  all (fun x => 0 <= x) w -> \sum_(x <- w) x = 1 ->
  always (fun x => exists i, [/\ x = Ok i, (i < size w)%N & 0 < w`_i]) (np_choice w) /\
  has_exp (on_ok (fun i => (i == k)%:R)) (np_choice w) w`_k.
Proof. exact C26_numpy_choice_lemma. Qed.
Print Assumptions C26_numpy_choice.

(* C27: whatever the object g did before, as long as its calculator holds U; in particular for every unitary U *)
Theorem C27_gcc_exact :
  forall (R : rcfType) (gray : nat -> seq nat) (fuel m : nat) (U : seq (seq (ComplexField.complex_numFieldType R))) (s : seq nat) (k : nat) (g : gcc R),
  unitary_on m U s -> size s = m -> gray_ok gray (sumn s) -> (\prod_(x <- s) x.+1 <= fuel)%N ->
  calc_matrix (g_calc g) = U ->
  iid_samples (gcc_simulate gray fuel s k g) k (is_state m (sumn s)) (bs_prob U s).
Proof. exact C27_gcc_exact_lemma. Qed.
Print Assumptions C27_gcc_exact.

Example C27_example (R : rcfType) : (* both of two samples show one photon per mode *)
  has_exp (on_ok (fun x => (x.1 == [:: [:: 1; 1]; [:: 1; 1]]%N)%:R : R)) (gcc_simulate reflected_gray 4 [:: 1; 1]%N 2 (new_gcc (generate_calculator (CalcFactory (splitter R) [::] [::] RYSER))))
    (49%:R / 625%:R * (49%:R / 625%:R)).
Proof.
have pr : (\prod_(x <- [:: 1; 1]) x.+1 <= 4)%N by rewrite !big_cons big_nil.
apply: has_exp_eq (@C27_gcc_exact R reflected_gray 4 2 (splitter R) [:: 1; 1]%N 2 (new_gcc (generate_calculator (CalcFactory (splitter R) [::] [::] RYSER))) (unitaryW (s := [:: 1; 1]%N) (splitter_unitary R) isT) erefl (@reflected_gray_ok _) pr erefl [:: [:: 1; 1]; [:: 1; 1]]%N) _.
by rewrite !big_cons big_nil mulr1 splitter_coincidence.
Qed.

(* C27: no run raises, and impossible outputs never occur *)
Theorem C27_gcc_never_fails :
  forall (R : rcfType) (gray : nat -> seq nat) (fuel m : nat) (U : seq (seq (ComplexField.complex_numFieldType R))) (s : seq nat) (k : nat) (g : gcc R),
  unitary_on m U s -> size s = m -> gray_ok gray (sumn s) -> (\prod_(x <- s) x.+1 <= fuel)%N ->
  calc_matrix (g_calc g) = U ->
  always (fun x => exists L g', [/\ x = Ok (L, g'), size L = k, calc_matrix (g_calc g') = U
      & forall t, t \in L -> is_state m (sumn s) t /\ 0 < bs_prob U s t])
    (gcc_simulate gray fuel s k g).
Proof. exact C27_gcc_never_fails_lemma. Qed.
Print Assumptions C27_gcc_never_fails.

(* C28: every matrix, object and run *)
Theorem C28_gcc_shape :
  forall (R : rcfType) (gray : nat -> seq nat) (fuel : nat) (s : seq nat) (k : nat) (g : gcc R),
  always (if_ok (fun x => size x.1 = k /\ forall t, t \in x.1 -> is_state (size s) (sumn s) t))
    (gcc_simulate gray fuel s k g).
Proof. exact C28_gcc_shape_lemma. Qed.
Print Assumptions C28_gcc_shape.

Example C28_example (R : rcfType) : (* not a unitary matrix *)
  always (if_ok (fun x => size x.1 = 3%N /\ forall t, t \in x.1 -> is_state 2 5 t))
    (gcc_simulate reflected_gray 100 [:: 2; 3]%N 3
      (new_gcc (generate_calculator (CalcFactory [:: [:: 1; 1]; [:: 1; 1] : seq (ComplexField.complex_numFieldType R)] [::] [::] RYSER)))).
Proof. exact (C28_gcc_shape reflected_gray 100 [:: 2; 3]%N 3 _). Qed.

(* C28: mode-assignment variant *)
Theorem C28_mode_assignment_shape :
  forall (R : rcfType) (gray : nat -> seq nat) (fuel : nat) (s : seq nat) (k : nat) (g : gcc R),
  always (if_ok (fun x => size x.1 = k /\ forall t, t \in x.1 -> is_state (size s) (sumn s) t))
    (ma_simulate gray fuel s k g).
Proof. exact C28_mode_assignment_shape_lemma. Qed.
Print Assumptions C28_mode_assignment_shape.

(* C28: version B *)
Theorem C28_gcc_b_shape :
  forall (R : rcfType) (fuel : nat) (s : seq nat) (k : nat) (b : gccb R),
  always (if_ok (fun x => size x.1 = k /\ forall t, t \in x.1 -> is_state (size s) (sumn s) t))
    (gccb_simulate fuel s k b).
Proof. exact C28_gcc_b_shape_lemma. Qed.
Print Assumptions C28_gcc_b_shape.

(* C28: uniform losses; the number of modes is that of the matrix *)
Theorem C28_uniform_losses_shape :
  forall (R : rcfType) (gray : nat -> seq nat) (fuel : nat) (s : seq nat) (k : nat) (x : ugcc R),
  always (if_ok (fun y => size y.1 = k /\ forall t, t \in y.1 -> (size t == size (calc_matrix (g_calc (ug_gcc x)))) && (sumn t <= sumn s)%N))
    (ugcc_simulate gray fuel s k x).
Proof. exact C28_uniform_losses_shape_lemma. Qed.
Print Assumptions C28_uniform_losses_shape.

(* C28: version B with uniform losses *)
Theorem C28_gcc_b_uniform_losses_shape :
  forall (R : rcfType) (fuel : nat) (s : seq nat) (k : nat) (x : ugccb R),
  0 <= ub_eta x <= 1 ->
  always (if_ok (fun x => size x.1 = k /\ forall t, t \in x.1 -> (size t == size s) && (sumn t <= sumn s)%N))
    (ugccb_simulate fuel s k x).
Proof. exact C28_gcc_b_uniform_losses_shape_lemma. Qed.
Print Assumptions C28_gcc_b_uniform_losses_shape.

(* C29: after any calls, on any draws, simulate behaves as on a new object holding the current matrix *)
Theorem C29_gcc_history :
  forall (R : rcfType) (gray : nat -> seq nat) (fuel : nat)
    (broken : gcc_op R -> pyerr -> gcc R -> gcc R) (ops : seq (gcc_op R))
    (a : any_calc (ComplexField.complex_numFieldType R)) (s : seq nat) (k : nat),
  (forall op e g, same_core (g_calc (broken op e g)) (g_calc g)) ->
  always (fun g => same_run (@same_samples _ _ _) (gcc_simulate gray fuel s k g)
      (gcc_simulate gray fuel s k (new_gcc (set_matrix (last_matrix (calc_matrix a) ops) a))))
    (run_gcc_ops (gcc_simulate gray fuel) broken ops (new_gcc a)).
Proof. exact C29_gcc_history_lemma. Qed.
Print Assumptions C29_gcc_history.

Example C29_example (R : rcfType) (a : any_calc (ComplexField.complex_numFieldType R)) M : (* simulate, change the matrix, simulate *)
  always (fun g => same_run (@same_samples _ _ _) (gcc_simulate reflected_gray 9 [:: 1; 1]%N 4 g)
      (gcc_simulate reflected_gray 9 [:: 1; 1]%N 4 (new_gcc (set_matrix M a))))
    (run_gcc_ops (gcc_simulate reflected_gray 9) (fun _ _ g => g) [:: OpSimulate R [:: 2; 1]%N 3; OpSetMatrix M] (new_gcc a)).
Proof. by apply: C29_gcc_history => op e g; case: (g_calc g) => [? ? ?|? ? ?|? ?]. Qed.

(* C29: mode-assignment variant *)
Theorem C29_mode_assignment_history :
  forall (R : rcfType) (gray : nat -> seq nat) (fuel : nat)
    (broken : gcc_op R -> pyerr -> gcc R -> gcc R) (ops : seq (gcc_op R))
    (a : any_calc (ComplexField.complex_numFieldType R)) (s : seq nat) (k : nat),
  (forall op e g, same_core (g_calc (broken op e g)) (g_calc g)) ->
  always (fun g => same_run (@same_samples _ _ _) (ma_simulate gray fuel s k g)
      (ma_simulate gray fuel s k (new_gcc (set_matrix (last_matrix (calc_matrix a) ops) a))))
    (run_gcc_ops (ma_simulate gray fuel) broken ops (new_gcc a)).
Proof. exact C29_mode_assignment_history_lemma. Qed.
Print Assumptions C29_mode_assignment_history.

(* C29: on the same draws the sampler without a cache returns the same *)
Theorem C29_gcc_cache :
  forall (R : rcfType) (gray : nat -> seq nat) (fuel : nat) (s : seq nat) (k : nat) (g : gcc R),
  same_run (@same_samples _ _ _) (gcc_simulate gray fuel s k g) (nocache_simulate gray fuel s k g).
Proof. exact C29_gcc_cache_lemma. Qed.
Print Assumptions C29_gcc_cache.

(* C29: mode-assignment variant *)
Theorem C29_mode_assignment_cache :
  forall (R : rcfType) (gray : nat -> seq nat) (fuel : nat) (s : seq nat) (k : nat) (g : gcc R),
  same_run (@same_samples _ _ _) (ma_simulate gray fuel s k g) (ma_nocache_simulate gray fuel s k g).
Proof. exact C29_mode_assignment_cache_lemma. Qed.
Print Assumptions C29_mode_assignment_cache.

(* C29: version B: only the matrix of the calculator matters *)
Theorem C29_gcc_b_history :
  forall (R : rcfType) (fuel : nat) (s : seq nat) (k : nat) (b c : gccb R),
  calc_matrix (b_calc b) = calc_matrix (b_calc c) ->
  same_run (@same_samples _ _ _) (gccb_simulate fuel s k b) (gccb_simulate fuel s k c).
Proof. exact C29_gcc_b_history_lemma. Qed.
Print Assumptions C29_gcc_b_history.

(* C29: version B with losses: only the matrix and the transmissivity matter *)
Theorem C29_gcc_b_uniform_losses_history :
  forall (R : rcfType) (fuel : nat) (s : seq nat) (k : nat) (x y : ugccb R),
  calc_matrix (b_calc (ub_b x)) = calc_matrix (b_calc (ub_b y)) -> ub_eta x = ub_eta y ->
  same_run (@same_samples _ _ _) (ugccb_simulate fuel s k x) (ugccb_simulate fuel s k y).
Proof. exact C29_gcc_b_uniform_losses_history_lemma. Qed.
Print Assumptions C29_gcc_b_uniform_losses_history.

(* C29: version A with losses: only the class and matrix of the calculator, the transmissivity and the option matter; the samples and both collected lists are the same *)
Theorem C29_uniform_losses_history :
  forall (R : rcfType) (gray : nat -> seq nat) (fuel : nat) (s : seq nat) (k : nat) (x y : ugcc R), same_core (g_calc (ug_gcc x)) (g_calc (ug_gcc y)) -> ug_eta x = ug_eta y -> ug_missing x = ug_missing y ->
  same_run (same_res (fun p q => [/\ p.1 = q.1, ug_dist p.2 = ug_dist q.2 & ug_unw p.2 = ug_unw q.2])) (ugcc_simulate gray fuel s k x) (ugcc_simulate gray fuel s k y).
Proof. exact C29_uniform_losses_history_lemma. Qed.
Print Assumptions C29_uniform_losses_history.

(* C29: the same for collecting the distributions *)
Theorem C29_collected_history :
  forall (R : rcfType) (gray : nat -> seq nat) (fuel : nat) (accuracy tol : R) (rounds : nat) (s : seq nat) (x y : ugcc R), same_core (g_calc (ug_gcc x)) (g_calc (ug_gcc y)) -> ug_eta x = ug_eta y -> ug_missing x = ug_missing y ->
  same_run (same_res (fun p q => [/\ p.1 = q.1, ug_dist p.2 = ug_dist q.2 & ug_unw p.2 = ug_unw q.2])) (compute_distribution gray fuel accuracy tol rounds s x) (compute_distribution gray fuel accuracy tol rounds s y) /\
  same_run (same_res (fun p q => [/\ p.1 = q.1, ug_dist p.2 = ug_dist q.2 & ug_unw p.2 = ug_unw q.2])) (compute_unweighted gray fuel accuracy tol rounds s x) (compute_unweighted gray fuel accuracy tol rounds s y).
Proof. exact C29_collected_history_lemma. Qed.
Print Assumptions C29_collected_history.

(* C30 *)
Theorem C30_mode_assignment_exact :
  forall (R : rcfType) (gray : nat -> seq nat) (fuel m : nat) (U : seq (seq (ComplexField.complex_numFieldType R))) (s : seq nat) (k : nat) (g : gcc R),
  unitary_on m U s -> size s = m -> gray_ok gray (sumn s) -> (\prod_(x <- s) x.+1 <= fuel)%N -> (0 < m)%N ->
  calc_matrix (g_calc g) = U ->
  iid_samples (ma_simulate gray fuel s k g) k (is_state m (sumn s)) (bs_prob U s).
Proof. exact C30_mode_assignment_exact_lemma. Qed.
Print Assumptions C30_mode_assignment_exact.

Example C30_example (R : rcfType) : (* both of two samples show one photon per mode *)
  has_exp (on_ok (fun x => (x.1 == [:: [:: 1; 1]; [:: 1; 1]]%N)%:R : R)) (ma_simulate reflected_gray 4 [:: 1; 1]%N 2 (new_gcc (generate_calculator (CalcFactory (splitter R) [::] [::] RYSER))))
    (49%:R / 625%:R * (49%:R / 625%:R)).
Proof.
have pr : (\prod_(x <- [:: 1; 1]) x.+1 <= 4)%N by rewrite !big_cons big_nil.
apply: has_exp_eq (@C30_mode_assignment_exact R reflected_gray 4 2 (splitter R) [:: 1; 1]%N 2 (new_gcc (generate_calculator (CalcFactory (splitter R) [::] [::] RYSER))) (unitaryW (s := [:: 1; 1]%N) (splitter_unitary R) isT) erefl (@reflected_gray_ok _) pr isT erefl [:: [:: 1; 1]; [:: 1; 1]]%N) _.
by rewrite !big_cons big_nil mulr1 splitter_coincidence.
Qed.

(* C31: whatever the object b did before *)
Theorem C31_gcc_b_exact :
  forall (R : rcfType) (fuel m : nat) (U : seq (seq (ComplexField.complex_numFieldType R))) (s : seq nat) (k : nat) (b : gccb R),
  unitary_on m U s -> size s = m -> (\prod_(x <- s) x.+1 <= fuel)%N ->
  calc_matrix (b_calc b) = U ->
  iid_samples (gccb_simulate fuel s k b) k (is_state m (sumn s)) (bs_prob U s).
Proof. exact C31_gcc_b_exact_lemma. Qed.
Print Assumptions C31_gcc_b_exact.

Example C31_example (R : rcfType) : (* both of two samples show one photon per mode *)
  has_exp (on_ok (fun x => (x.1 == [:: [:: 1; 1]; [:: 1; 1]]%N)%:R : R)) (gccb_simulate 4 [:: 1; 1]%N 2 (new_gccb (generate_calculator (CalcFactory (splitter R) [::] [::] RYSER))))
    (49%:R / 625%:R * (49%:R / 625%:R)).
Proof.
have pr : (\prod_(x <- [:: 1; 1]) x.+1 <= 4)%N by rewrite !big_cons big_nil.
apply: has_exp_eq (@C31_gcc_b_exact R 4 2 (splitter R) [:: 1; 1]%N 2 (new_gccb (generate_calculator (CalcFactory (splitter R) [::] [::] RYSER))) (unitaryW (s := [:: 1; 1]%N) (splitter_unitary R) isT) erefl pr erefl [:: [:: 1; 1]; [:: 1; 1]]%N) _.
by rewrite !big_cons big_nil mulr1 splitter_coincidence.
Qed.

(* C31: no run raises *)
Theorem C31_gcc_b_never_fails :
  forall (R : rcfType) (fuel m : nat) (U : seq (seq (ComplexField.complex_numFieldType R))) (s : seq nat) (k : nat) (b : gccb R),
  unitary_on m U s -> size s = m -> (\prod_(x <- s) x.+1 <= fuel)%N ->
  calc_matrix (b_calc b) = U ->
  always (fun x => exists L b', [/\ x = Ok (L, b'), size L = k, calc_matrix (b_calc b') = U
      & forall t, t \in L -> is_state m (sumn s) t])
    (gccb_simulate fuel s k b).
Proof. exact C31_gcc_b_never_fails_lemma. Qed.
Print Assumptions C31_gcc_b_never_fails.

(* C32: the probabilities are those of C23 *)
Theorem C32_uniform_losses_exact :
  forall (R : rcfType) (gray : nat -> seq nat) (m : nat) (U : seq (seq (ComplexField.complex_numFieldType R))) (s : seq nat) (eta : R) (k : nat),
  unitary_on m U s -> size s = m -> (0 < m)%N -> gray_ok gray (sumn s) -> 0 <= eta <= 1 ->
  exists f0, forall (fuel : nat) (x : ugcc R), (f0 <= fuel)%N ->
  calc_matrix (g_calc (ug_gcc x)) = U -> ug_eta x = eta ->
  iid_samples (ugcc_simulate gray fuel s k x) k [pred t | (size t == m) && (sumn t <= sumn s)%N] (uniform_loss_prob U s eta).
Proof. exact C32_uniform_losses_exact_lemma. Qed.
Print Assumptions C32_uniform_losses_exact.

Example C32_example (R : rcfType) : exists f0, forall fuel, (f0 <= fuel)%N -> (* half of the photons lost *)
  has_exp (on_ok (fun x => (x.1 == [:: [:: 1; 1]]%N)%:R : R))
    (ugcc_simulate reflected_gray fuel [:: 1; 1]%N 1 (new_ugcc (generate_calculator (CalcFactory (splitter R) [::] [::] RYSER)) 2%:R^-1))
    (2%:R^-1 ^+ 2 * (49%:R / 625%:R)).
Proof.
have h01 : 0 <= (2%:R^-1 : R) <= 1 by rewrite invr_ge0 ler0n invf_le1 ?ltr0n // ler1n.
have [f0 H] := @C32_uniform_losses_exact R reflected_gray 2 (splitter R) [:: 1; 1]%N 2%:R^-1 1 (unitaryW (s := [:: 1; 1]%N) (splitter_unitary R) isT) erefl isT (@reflected_gray_ok _) h01.
exists f0 => fuel ge; apply: has_exp_eq (H fuel (new_ugcc (generate_calculator (CalcFactory (splitter R) [::] [::] RYSER)) 2%:R^-1) ge erefl erefl [:: [:: 1; 1]]%N) _.
rewrite big_cons big_nil mulr1 /uniform_loss_prob /binomial_weight binn subnn expr0 mulr1 mul1r.
by rewrite fixed_loss_full // splitter_coincidence.
Qed.

(* C33: whatever the object x did before *)
Theorem C33_gcc_b_uniform_losses_exact :
  forall (R : rcfType) (fuel m : nat) (U : seq (seq (ComplexField.complex_numFieldType R))) (s : seq nat) (eta : R) (k : nat) (x : ugccb R),
  unitary_on m U s -> size s = m -> (\prod_(x <- s) x.+1 <= fuel)%N -> 0 <= eta <= 1 ->
  calc_matrix (b_calc (ub_b x)) = U -> ub_eta x = eta ->
  iid_samples (ugccb_simulate fuel s k x) k [pred t | (size t == m) && (sumn t <= sumn s)%N] (uniform_loss_prob U s eta).
Proof. exact C33_gcc_b_uniform_losses_exact_lemma. Qed.
Print Assumptions C33_gcc_b_uniform_losses_exact.

Example C33_example (R : rcfType) :
  has_exp (on_ok (fun x => (x.1 == [:: [:: 1; 1]]%N)%:R : R))
    (ugccb_simulate 4 [:: 1; 1]%N 1 (new_ugccb (generate_calculator (CalcFactory (splitter R) [::] [::] RYSER)) 2%:R^-1))
    (2%:R^-1 ^+ 2 * (49%:R / 625%:R)).
Proof.
have h01 : 0 <= (2%:R^-1 : R) <= 1 by rewrite invr_ge0 ler0n invf_le1 ?ltr0n // ler1n.
have pr : (\prod_(x <- [:: 1; 1]) x.+1 <= 4)%N by rewrite !big_cons big_nil.
apply: has_exp_eq (@C33_gcc_b_uniform_losses_exact R 4 2 (splitter R) [:: 1; 1]%N 2%:R^-1 1 (new_ugccb (generate_calculator (CalcFactory (splitter R) [::] [::] RYSER)) 2%:R^-1) (unitaryW (s := [:: 1; 1]%N) (splitter_unitary R) isT) erefl pr h01 erefl erefl [:: [:: 1; 1]]%N) _.
rewrite big_cons big_nil mulr1 /uniform_loss_prob /binomial_weight binn subnn expr0 mulr1 mul1r.
by rewrite fixed_loss_full // splitter_coincidence.
Qed.

(* C33: no run raises *)
Theorem C33_gcc_b_uniform_losses_never_fails :
  forall (R : rcfType) (fuel m : nat) (U : seq (seq (ComplexField.complex_numFieldType R))) (s : seq nat) (eta : R) (k : nat) (x : ugccb R),
  unitary_on m U s -> size s = m -> (\prod_(x <- s) x.+1 <= fuel)%N -> 0 <= eta <= 1 ->
  calc_matrix (b_calc (ub_b x)) = U -> ub_eta x = eta ->
  always (fun y => exists L x', [/\ y = Ok (L, x'), size L = k, calc_matrix (b_calc (ub_b x')) = U /\ ub_eta x' = eta
      & forall t, t \in L -> (size t == m) && (sumn t <= sumn s)%N])
    (ugccb_simulate fuel s k x).
Proof. exact C33_gcc_b_uniform_losses_never_fails_lemma. Qed.
Print Assumptions C33_gcc_b_uniform_losses_never_fails.

(* C33: the object remembers the number of particles of the last sample *)
Theorem C33_gcc_b_left_attribute :
  forall (R : rcfType) (fuel m : nat) (U : seq (seq (ComplexField.complex_numFieldType R))) (s : seq nat) (eta : R) (k : nat) (x : ugccb R),
  unitary_on m U s -> size s = m -> (\prod_(x <- s) x.+1 <= fuel)%N -> 0 <= eta <= 1 ->
  calc_matrix (b_calc (ub_b x)) = U -> ub_eta x = eta -> (0 < k)%N ->
  always (fun y => exists L x', y = Ok (L, x') /\ ub_left x' = sumn (last [::] L)) (ugccb_simulate fuel s k x).
Proof. exact C33_gcc_b_left_attribute_lemma. Qed.
Print Assumptions C33_gcc_b_left_attribute.

(* C34: after k samples and i photons of the next one, every entry of both lists is untouched or exact *)
Theorem C34_collected_distribution :
  forall (R : rcfType) (gray : nat -> seq nat) (m : nat) (U : seq (seq (ComplexField.complex_numFieldType R))) (s : seq nat) (eta : R) (k i : nat),
  unitary_on m U s -> size s = m -> (0 < m)%N -> gray_ok gray (sumn s) -> (i <= sumn s)%N ->
  exists (L : seq (seq nat)) (f0 : nat), [/\ uniq L, L =i [pred t | (size t == m) && (sumn t <= sumn s)%N] & forall (fuel : nat) (x : ugcc R),
  (f0 <= fuel)%N -> calc_matrix (g_calc (ug_gcc x)) = U -> ug_eta x = eta ->
  generate_possible_states fuel (Posz (sumn s)) (Posz (size s)) true = Ok L /\
  always (fun y => exists x', [/\ y = Ok x', size (ug_dist x') = size L, size (ug_unw x') = size L
     & forall j, (j < size L)%N ->
       (ug_dist x')`_j \in [:: (if ug_missing x then -1 else 0); uniform_loss_prob U s eta (nth [::] L j)] /\
       (ug_unw x')`_j \in [:: (if ug_missing x then -1 else 0); fixed_loss_prob U s (nth [::] L j)]])
    (moment gray fuel s k i x)].
Proof. exact C34_collected_distribution_lemma. Qed.
Print Assumptions C34_collected_distribution.

(* C34: the returned list: entries untouched or exact, and the total is close to the accuracy asked for *)
Theorem C34_distribution_up_to_accuracy :
  forall (R : rcfType) (gray : nat -> seq nat) (m : nat) (U : seq (seq (ComplexField.complex_numFieldType R))) (s : seq nat) (eta accuracy tol : R),
  unitary_on m U s -> size s = m -> (0 < m)%N -> gray_ok gray (sumn s) ->
  exists (L : seq (seq nat)) (f0 : nat), [/\ uniq L, L =i [pred t | (size t == m) && (sumn t <= sumn s)%N] & forall (fuel : nat) (x : ugcc R),
  (f0 <= fuel)%N -> calc_matrix (g_calc (ug_gcc x)) = U -> ug_eta x = eta ->
  generate_possible_states fuel (Posz (sumn s)) (Posz (size s)) true = Ok L /\
  forall rounds, always (fun y => y = Err OutOfFuel \/ exists D x', [/\ y = Ok (D, x'), size D = size L,
       forall j, (j < size L)%N -> D`_j \in [:: (if ug_missing x then -1 else 0); uniform_loss_prob U s eta (nth [::] L j)]
     & accuracy - \sum_(p <- D) p <= tol])
    (compute_distribution gray fuel accuracy tol rounds s x)].
Proof. exact C34_distribution_up_to_accuracy_lemma. Qed.
Print Assumptions C34_distribution_up_to_accuracy.

(* C34: the same for the unweighted list *)
Theorem C34_unweighted_up_to_accuracy :
  forall (R : rcfType) (gray : nat -> seq nat) (m : nat) (U : seq (seq (ComplexField.complex_numFieldType R))) (s : seq nat) (eta accuracy tol : R),
  unitary_on m U s -> size s = m -> (0 < m)%N -> gray_ok gray (sumn s) -> (0 < sumn s)%N ->
  exists (L : seq (seq nat)) (f0 : nat), [/\ uniq L, L =i [pred t | (size t == m) && (sumn t <= sumn s)%N] & forall (fuel : nat) (x : ugcc R),
  (f0 <= fuel)%N -> calc_matrix (g_calc (ug_gcc x)) = U -> ug_eta x = eta ->
  generate_possible_states fuel (Posz (sumn s)) (Posz (size s)) true = Ok L /\
  forall rounds, always (fun y => y = Err OutOfFuel \/ exists D x', [/\ y = Ok (D, x'), size D = size L,
       forall j, (j < size L)%N -> D`_j \in [:: (if ug_missing x then -1 else 0); fixed_loss_prob U s (nth [::] L j)]
     & accuracy - (\sum_(p <- D) p) / (sumn s)%:R <= tol])
    (compute_unweighted gray fuel accuracy tol rounds s x)].
Proof. exact C34_unweighted_up_to_accuracy_lemma. Qed.
Print Assumptions C34_unweighted_up_to_accuracy.

(* C34: without particles the unweighted list is never computed: division by zero *)
Theorem C34_unweighted_vacuum :
  forall (R : rcfType) (gray : nat -> seq nat) (m : nat) (U : seq (seq (ComplexField.complex_numFieldType R))) (s : seq nat) (eta accuracy tol : R),
  unitary_on m U s -> size s = m -> (0 < m)%N -> gray_ok gray (sumn s) -> sumn s = 0%N ->
  exists (L : seq (seq nat)) (f0 : nat), [/\ uniq L, L =i [pred t | (size t == m) && (sumn t <= sumn s)%N] & forall (fuel : nat) (x : ugcc R),
  (f0 <= fuel)%N -> calc_matrix (g_calc (ug_gcc x)) = U -> ug_eta x = eta ->
  generate_possible_states fuel (Posz (sumn s)) (Posz (size s)) true = Ok L /\
  forall rounds, compute_unweighted gray fuel accuracy tol rounds s x = Ret (Err ZeroDivisionError)].
Proof. exact C34_unweighted_vacuum_lemma. Qed.
Print Assumptions C34_unweighted_vacuum.

(* C34: asked for accuracy 1 without tolerance, whatever is returned is the exact distribution *)
Theorem C34_full_accuracy :
  forall (R : rcfType) (gray : nat -> seq nat) (m : nat) (U : seq (seq (ComplexField.complex_numFieldType R))) (s : seq nat) (eta : R),
  unitary_on m U s -> size s = m -> (0 < m)%N -> gray_ok gray (sumn s) -> 0 <= eta <= 1 ->
  exists (L : seq (seq nat)) (f0 : nat), [/\ uniq L, L =i [pred t | (size t == m) && (sumn t <= sumn s)%N] & forall (fuel : nat) (x : ugcc R),
  (f0 <= fuel)%N -> calc_matrix (g_calc (ug_gcc x)) = U -> ug_eta x = eta ->
  generate_possible_states fuel (Posz (sumn s)) (Posz (size s)) true = Ok L /\
  (ug_missing x = false -> forall rounds, always (fun y => y = Err OutOfFuel \/
      exists x', y = Ok ([seq uniform_loss_prob U s eta t | t <- L], x'))
    (compute_distribution gray fuel 1 0 rounds s x))].
Proof. exact C34_full_accuracy_lemma. Qed.
Print Assumptions C34_full_accuracy.

Example C34_example (R : rcfType) : exists (L : seq (seq nat)) (f0 : nat), forall fuel rounds, (f0 <= fuel)%N ->
  always (fun y => y = Err OutOfFuel \/ exists x', y = Ok ([seq uniform_loss_prob (splitter R) [:: 1; 1]%N 2%:R^-1 t | t <- L], x'))
    (compute_distribution reflected_gray fuel 1 0 rounds [:: 1; 1]%N (new_ugcc (generate_calculator (CalcFactory (splitter R) [::] [::] RYSER)) 2%:R^-1)).
Proof.
have h01 : 0 <= (2%:R^-1 : R) <= 1 by rewrite invr_ge0 ler0n invf_le1 ?ltr0n // ler1n.
have [L [f0 [_ _ H]]] := @C34_full_accuracy R reflected_gray 2 (splitter R) [:: 1; 1]%N 2%:R^-1 (unitaryW (s := [:: 1; 1]%N) (splitter_unitary R) isT) erefl isT (@reflected_gray_ok _) h01.
exists L, f0 => fuel rounds ge; have [_ h] := H fuel (new_ugcc (generate_calculator (CalcFactory (splitter R) [::] [::] RYSER)) 2%:R^-1) ge erefl erefl.
exact: h.
Qed.

(* C34: this holds for newly built objects: missing values are not flagged at first *)
Theorem C34_new_object :
  forall (R : rcfType) (gray : nat -> seq nat) (m : nat) (U : seq (seq (ComplexField.complex_numFieldType R))) (s : seq nat) (eta : R),
  unitary_on m U s -> size s = m -> (0 < m)%N -> gray_ok gray (sumn s) -> 0 <= eta <= 1 ->
  exists (L : seq (seq nat)) (f0 : nat), [/\ uniq L, L =i [pred t | (size t == m) && (sumn t <= sumn s)%N] &
  forall (fuel rounds : nat) (a : any_calc (ComplexField.complex_numFieldType R)),
  (f0 <= fuel)%N -> calc_matrix a = U ->
  always (fun y => y = Err OutOfFuel \/ exists x', y = Ok ([seq uniform_loss_prob U s eta t | t <- L], x'))
    (compute_distribution gray fuel 1 0 rounds s (new_ugcc a eta))].
Proof. exact C34_new_object_lemma. Qed.
Print Assumptions C34_new_object.
