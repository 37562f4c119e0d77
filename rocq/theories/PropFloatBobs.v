(* Property theorems: C87 (rounding errors of the strategy for losses that differ between the modes).  Only statements; proofs elsewhere. *)
From mathcomp Require Import all_ssreflect all_algebra complex ring zify.
From Verif Require Import Base SpecStates Combi SpecPerm SpecBS ModelStates ModelPerm ModelDist SpecProb ModelGcc ModelGccB ModelNet SpecNet ModelBobs SpecBobs ModelLState SpecLState ModelFloat ModelFloatGcc ModelFloatGccB ModelFloatNet ModelFloatLState ModelFloatBobs SpecFloat SpecFloatGcc SpecFloatSub SpecFloatGccB SpecFloatNet SpecFloatFixed SpecFloatLState SpecFloatBobs ProofGccB2 LemFloatBobs.
Set Implicit Arguments.
Unset Strict Implicit.
Unset Printing Implicit Defensive.
Import Order.TTheory GRing.Theory Num.Theory.
Local Open Scope ring_scope.
Local Open Scope py_scope.

(* C87: with exact operations the pieces of the strategy are those of the model with exact numbers *)
Theorem C87_exact_arithmetic :
  forall (R : rcfType) (svd : (seq (seq (ComplexField.complex_numFieldType R))) -> res ((seq (seq (ComplexField.complex_numFieldType R))) * seq R * (seq (seq (ComplexField.complex_numFieldType R))))) (cpu : nat) (a : any_calc (ComplexField.complex_numFieldType R)) (modes threads : int) (s : seq nat) (x : bobs R) (M : (seq (seq (ComplexField.complex_numFieldType R))))
    (z acc l : R) (values : seq nat) (weights : seq R) (mx : nat),
  let B := exact_arith R in let dot := @exact_dot (ComplexField.complex_numFieldType R) in
  [/\ fl_extract_losses B Num.sqrt dot svd M = extract_losses svd M,
      fl_new_bobs B Num.sqrt dot svd cpu a modes threads = new_bobs svd cpu a modes threads,
      fl_bobs_start B s x = bobs_start s x,
      fl_choice_loop B z acc values weights = choice_loop z acc values weights
    & fl_own_weights B l mx = own_binomial_weights l mx].
Proof. exact C87_exact_arithmetic_lemma. Qed.
Print Assumptions C87_exact_arithmetic.

(* C87: removing the common losses.  For a matrix whose computed decomposition is up to d that of the network M0, which is sqrt t times N0 *)
Theorem C87_common_losses :
  forall (R : rcfType) (u d : R) (B : arith R) (f_sqrt : R -> R) (f_dot : seq (ComplexField.complex_numFieldType R) -> seq (ComplexField.complex_numFieldType R) -> (ComplexField.complex_numFieldType R)) (svd : (seq (seq (ComplexField.complex_numFieldType R))) -> res ((seq (seq (ComplexField.complex_numFieldType R))) * seq R * (seq (seq (ComplexField.complex_numFieldType R)))))
    (m : nat) (M M0 V U : (seq (seq (ComplexField.complex_numFieldType R)))) (q : seq R) (t : R) (N0 : (seq (seq (ComplexField.complex_numFieldType R)))),
  0 <= u -> u <= 8%:R^-1 -> 0 <= d -> accurate u B -> accurate_sqrt u f_sqrt -> accurate_dot (u%:C)%C f_dot ->
  (0 < m)%N -> svd M = Ok (V, q, U) -> near_svd m d M0 V q U -> subunitary m M0 ->
  common_losses m M0 t N0 -> divisor_error u d <= t / 2%:R ->
  exists l Y, [/\ fl_extract_losses B f_sqrt f_dot svd M = Ok (l, Y), is_square m Y,
    `|l - (1 - t)| <= loss_sv_error u d & close m (extract_error u d t m) Y N0].
Proof. exact C87_common_losses_lemma. Qed.
Print Assumptions C87_common_losses.

(* C87: what is left without the common losses is a network, and it keeps the length of some vector *)
Theorem C87_network_left :
  forall (R : rcfType) (m : nat) (M0 : (seq (seq (ComplexField.complex_numFieldType R)))) (t : R) (N0 : (seq (seq (ComplexField.complex_numFieldType R)))),
  common_losses m M0 t N0 -> is_square m N0 ->
  subunitary m N0 /\ exists v, vec_norm m v = 1 /\ image_norm m N0 v = 1.
Proof. exact C87_network_left_lemma. Qed.
Print Assumptions C87_network_left.

(* C87: a new object for a calculator with this matrix; its losses and those that are simulated *)
Theorem C87_new_object :
  forall (R : rcfType) (u d : R) (B : arith R) (f_sqrt : R -> R) (f_dot : seq (ComplexField.complex_numFieldType R) -> seq (ComplexField.complex_numFieldType R) -> (ComplexField.complex_numFieldType R)) (svd : (seq (seq (ComplexField.complex_numFieldType R))) -> res ((seq (seq (ComplexField.complex_numFieldType R))) * seq R * (seq (seq (ComplexField.complex_numFieldType R)))))
    (m : nat) (M M0 V U : (seq (seq (ComplexField.complex_numFieldType R)))) (q : seq R) (t : R) (N0 : (seq (seq (ComplexField.complex_numFieldType R)))) (cpu : nat) (a : any_calc (ComplexField.complex_numFieldType R)) (modes threads : int),
  0 <= u -> u <= 8%:R^-1 -> 0 <= d -> accurate u B -> accurate_sqrt u f_sqrt -> accurate_dot (u%:C)%C f_dot ->
  (0 < m)%N -> svd M = Ok (V, q, U) -> near_svd m d M0 V q U -> subunitary m M0 ->
  common_losses m M0 t N0 -> divisor_error u d <= t / 2%:R -> loss_sv_error u d <= (10%:R ^+ 8)^-1 ->
  is_square m M -> calc_matrix a = M -> (0 < cpu)%N ->
  exists x, [/\ fl_new_bobs B f_sqrt f_dot svd cpu a modes threads = Ok x,
    fl_bobs_of B f_sqrt f_dot svd m N0 (extract_error u d t m) x /\ bo_particles x = 0%N,
    bo_modes x = (if (modes < 0)%R then 0%N else minn `|modes| m),
    `|bo_losses x - (1 - t)| <= loss_sv_error u d
  & `|fl_kept_losses B (bo_losses x) - (1 - t)| <= divisor_error u d + (10%:R ^+ 8)^-1].
Proof. exact C87_new_object_lemma. Qed.
Print Assumptions C87_new_object.

(* C87: the choice of the number of particles left in a mode with n particles *)
Theorem C87_choice :
  forall (R : rcfType) (u : R) (B : arith R) (N n mx : nat) (l : R) (f : nat -> R),
  0 <= u -> accurate u B -> (0 < N)%N -> 0 <= f_sub B 1 l <= 1 -> (0 < n)%N -> (n <= mx)%N -> (forall i, 0 <= f i <= 1) ->
  exists w v, [/\ dget_res (fl_own_weights B l mx) n = Ok w, size w = n.+1,
    forall i : nat, (i <= n)%N -> `|w`_i - binomial_weight n (f_sub B 1 l) i| <=
      ((1 + u) ^+ (2 * n + 3) - 1) * binomial_weight n (f_sub B 1 l) i,
    has_exp (on_ok (fun r => if r is Some i then f i else 0)) (fl_own_choice B N (iota 0 n.+1) w) v
  & `|v - \sum_(i < n.+1) binomial_weight n (f_sub B 1 l) i * f i| <= (n.+1 + n.+2)%:R * left_error u N n].
Proof. exact C87_choice_lemma. Qed.
Print Assumptions C87_choice.

(* C87: the particles left in front of the network are those of independent losses fl_kept_losses of every particle *)
Theorem C87_lossy_input :
  forall (R : rcfType) (u : R) (B : arith R) (N mx : nat) (l : R) (s : seq nat) (f : seq (option nat) -> R),
  0 <= u -> accurate u B -> (0 < N)%N -> 0 <= f_sub B 1 l <= 1 -> all (fun n => n <= mx)%N s ->
  (forall L, 0 <= f L <= 1) -> (forall L, None \in L -> f L = 0) ->
  exists v, has_exp (on_ok f) (fl_lossy_modes B N (fl_own_weights B l mx) s) v /\
    `|v - \sum_(K <- subs s) kept_weight (1 - f_sub B 1 l) s K * f (map Some K)| <= own_error u N s.
Proof. exact C87_lossy_input_lemma. Qed.
Print Assumptions C87_lossy_input.

(* C87: the assumption about the decomposition holds for every backward stable routine, in particular for an exact one *)
Theorem C87_stable_decomposition :
  forall (R : rcfType) (svd : (seq (seq (ComplexField.complex_numFieldType R))) -> res ((seq (seq (ComplexField.complex_numFieldType R))) * seq R * (seq (seq (ComplexField.complex_numFieldType R))))) (m : nat),
  (0 < m)%N ->
  (forall b d e : R, 0 <= b -> 0 <= d -> 0 <= e -> backward_svd svd m b d ->
    stable_svd svd m e (d + m%:R * (e + b)) (b + m%:R * (m%:R * (e + b)))) /\
  (svd_ok svd -> backward_svd svd m 0 0).
Proof. exact C87_stable_decomposition_lemma. Qed.
Print Assumptions C87_stable_decomposition.

(* C87: every network used for a sample is up to approx_net_error the one with the phases d and the exact Fourier matrix *)
Theorem C87_network :
  forall (R : rcfType) (u c eps : R) (A : arith (ComplexField.complex_numFieldType R)) (B : arith R) (f_sqrt : R -> R) (f_dot : seq (ComplexField.complex_numFieldType R) -> seq (ComplexField.complex_numFieldType R) -> (ComplexField.complex_numFieldType R))
    (cis f_cis : R -> (ComplexField.complex_numFieldType R)) (f_root : nat -> nat -> (ComplexField.complex_numFieldType R)) (svd : (seq (seq (ComplexField.complex_numFieldType R))) -> res ((seq (seq (ComplexField.complex_numFieldType R))) * seq R * (seq (seq (ComplexField.complex_numFieldType R))))) (m : nat) (N0 : (seq (seq (ComplexField.complex_numFieldType R)))) (x : bobs R) (rand : nat -> rprog R (res (seq R))),
  0 <= u -> u <= 8%:R^-1 -> 0 <= c -> 0 <= eps -> accurate (u%:C)%C A -> accurate u B -> accurate_sqrt u f_sqrt -> accurate_dot (u%:C)%C f_dot ->
  cis_ok cis -> accurate_cis c cis f_cis -> accurate_root c cis f_root ->
  (0 < m)%N -> subunitary m N0 -> fl_bobs_of B f_sqrt f_dot svd m N0 eps x ->
  always (fun r => exists d, r = Ok d) (rand (bo_modes x)) ->
  always (fun r => exists d Y, [/\ r = Ok Y, is_square m Y, subunitary m (approx_net cis m N0 (bo_modes x) d)
    & close m (approx_net_error u c eps m) Y (approx_net cis m N0 (bo_modes x) d)])
    (fl_approximate_matrix A B f_sqrt f_dot f_root f_cis rand x).
Proof. exact C87_network_lemma. Qed.
Print Assumptions C87_network.

(* C87: simulate.  The phases have the values S with the probabilities W.  Expectations of any test f (0 if an error is raised) differ from those of n exact independent samples with the losses lk by at most n bobs_error *)
Theorem C87_sampler :
  forall (R : rcfType) (u c eps dv e1 : R) (A : arith (ComplexField.complex_numFieldType R)) (B : arith R) (f_sqrt : R -> R) (f_dot : seq (ComplexField.complex_numFieldType R) -> seq (ComplexField.complex_numFieldType R) -> (ComplexField.complex_numFieldType R))
    (cis f_cis : R -> (ComplexField.complex_numFieldType R)) (f_root : nat -> nat -> (ComplexField.complex_numFieldType R)) (svd : (seq (seq (ComplexField.complex_numFieldType R))) -> res ((seq (seq (ComplexField.complex_numFieldType R))) * seq R * (seq (seq (ComplexField.complex_numFieldType R))))) (m : nat) (N0 : (seq (seq (ComplexField.complex_numFieldType R)))) (x : bobs R) (rand : nat -> rprog R (res (seq R)))
    (f_abs : (ComplexField.complex_numFieldType R) -> R) (f_sum f_check : seq R -> R) (f_search : R -> seq R -> nat) (fuel N : nat) (s : seq nat)
    (S : seq (seq R)) (W : seq R -> R) (e : seq R -> nat) (D : seq R -> (seq (seq (ComplexField.complex_numFieldType R)))) (M' : (seq (seq (ComplexField.complex_numFieldType R)))) (j : int) (f : seq (seq nat) -> R),
  0 <= u -> 0 <= c -> 0 <= eps -> 0 <= dv -> 0 <= e1 -> accurate (u%:C)%C A -> accurate u B -> accurate_sqrt u f_sqrt -> accurate_dot (u%:C)%C f_dot ->
  cis_ok cis -> accurate_cis c cis f_cis -> accurate_root c cis f_root ->
  (0 < m)%N -> subunitary m N0 -> fl_bobs_of B f_sqrt f_dot svd m N0 eps x ->
  (forall z, `|f_abs z - py_abs z| <= u * py_abs z) -> accurate_sum u f_sum -> accurate_sum u f_check -> right_search f_search -> (0 < N)%N ->
  size s = m -> (9 * (m + m) + 4)%:R * u <= (2%:R ^+ 27)^-1 -> stable_svd svd m (approx_net_error u c eps m) dv e1 ->
  let k := bo_modes x in let p := (bo_particles x + sumn (take k s))%N in let lk := fl_kept_losses B (bo_losses x) in
  let n := (bo_threads x * (`|j| %/ bo_threads x).+1)%N in
  (forall s', s' \in approx_inputs k p s -> (\prod_(y <- s') y.+1 <= fuel)%N) ->
  always (fun r => exists2 d, r = Ok d & d \in S) (rand k) ->
  (forall f, has_exp (on_ok f) (rand k) (\sum_(d <- S) W d * f d)) ->
  (forall i i', (i < m)%N -> (i' < m)%N -> ent M' i i' = (Num.sqrt (1 - lk))%:C%C * ent N0 i i') ->
  (forall d, d \in S -> dilation m (e d) (approx_net cis m M' k d) (D d)) -> 1 <= j -> (forall L, 0 <= f L <= 1) ->
  exists v, has_exp (on_ok (fun y => f y.1)) (fl_bobs_simulate A B f_sqrt f_dot f_root f_cis f_abs f_sum f_check f_search fuel N svd rand s j x) v /\
    `|v - iid_exp (lcomps m (approx_total k p s)) (bobs_law k p s S W e D) n f| <=
      n%:R * bobs_error u dv (approx_net_error u c eps m + e1) lk N m k p s.
Proof. exact C87_sampler_lemma. Qed.
Print Assumptions C87_sampler.

Example C87_example (R : rcfType) (N m n : nat) (t : R) : (* without rounding nothing is lost in the decomposition, and of the choices only the resolution of the random numbers is left *)
  [/\ divisor_error (0 : R) 0 = 0, extract_error (0 : R) 0 t m = 0
    & own_error (0 : R) N [:: n] = (n.+1 + n.+2)%:R / N%:R].
Proof.
have d0 : divisor_error (0 : R) 0 = 0 by rewrite /divisor_error !addr0 !expr1n mulr1 subrr.
have p0 : product_error (0 : R) m 0 0 = 0.
  by rewrite /product_error !addr0 !expr1n ?mulr1 subrr mulr0.
have s0 : left_sv_error (0 : R) 0 t = 0.
  by rewrite /left_sv_error /ratio_error d0 mulr0 mul0r !addr0 mulr1 subrr sqrtr0 addr0 mulr1 subrr.
split=> //; first by rewrite /extract_error s0 !p0.
by rewrite /own_error big_seq1 /left_error addr0 expr1n subrr add0r.
Qed.

(* C87: the probability that all samples are returned *)
Theorem C87_seldom_fails :
  forall (R : rcfType) (u c eps dv e1 : R) (A : arith (ComplexField.complex_numFieldType R)) (B : arith R) (f_sqrt : R -> R) (f_dot : seq (ComplexField.complex_numFieldType R) -> seq (ComplexField.complex_numFieldType R) -> (ComplexField.complex_numFieldType R))
    (cis f_cis : R -> (ComplexField.complex_numFieldType R)) (f_root : nat -> nat -> (ComplexField.complex_numFieldType R)) (svd : (seq (seq (ComplexField.complex_numFieldType R))) -> res ((seq (seq (ComplexField.complex_numFieldType R))) * seq R * (seq (seq (ComplexField.complex_numFieldType R))))) (m : nat) (N0 : (seq (seq (ComplexField.complex_numFieldType R)))) (x : bobs R) (rand : nat -> rprog R (res (seq R)))
    (f_abs : (ComplexField.complex_numFieldType R) -> R) (f_sum f_check : seq R -> R) (f_search : R -> seq R -> nat) (fuel N : nat) (s : seq nat)
    (S : seq (seq R)) (W : seq R -> R) (e : seq R -> nat) (D : seq R -> (seq (seq (ComplexField.complex_numFieldType R)))) (M' : (seq (seq (ComplexField.complex_numFieldType R)))) (j : int),
  0 <= u -> 0 <= c -> 0 <= eps -> 0 <= dv -> 0 <= e1 -> accurate (u%:C)%C A -> accurate u B -> accurate_sqrt u f_sqrt -> accurate_dot (u%:C)%C f_dot ->
  cis_ok cis -> accurate_cis c cis f_cis -> accurate_root c cis f_root ->
  (0 < m)%N -> subunitary m N0 -> fl_bobs_of B f_sqrt f_dot svd m N0 eps x ->
  (forall z, `|f_abs z - py_abs z| <= u * py_abs z) -> accurate_sum u f_sum -> accurate_sum u f_check -> right_search f_search -> (0 < N)%N ->
  size s = m -> (9 * (m + m) + 4)%:R * u <= (2%:R ^+ 27)^-1 -> stable_svd svd m (approx_net_error u c eps m) dv e1 ->
  let k := bo_modes x in let p := (bo_particles x + sumn (take k s))%N in let lk := fl_kept_losses B (bo_losses x) in
  let n := (bo_threads x * (`|j| %/ bo_threads x).+1)%N in
  (forall s', s' \in approx_inputs k p s -> (\prod_(y <- s') y.+1 <= fuel)%N) ->
  always (fun r => exists2 d, r = Ok d & d \in S) (rand k) ->
  (forall f, has_exp (on_ok f) (rand k) (\sum_(d <- S) W d * f d)) ->
  (forall i i', (i < m)%N -> (i' < m)%N -> ent M' i i' = (Num.sqrt (1 - lk))%:C%C * ent N0 i i') ->
  (forall d, d \in S -> dilation m (e d) (approx_net cis m M' k d) (D d)) -> 1 <= j ->
  exists v, has_exp (on_ok (fun=> 1)) (fl_bobs_simulate A B f_sqrt f_dot f_root f_cis f_abs f_sum f_check f_search fuel N svd rand s j x) v /\ 1 - n%:R * bobs_error u dv (approx_net_error u c eps m + e1) lk N m k p s <= v.
Proof. exact C87_seldom_fails_lemma. Qed.
Print Assumptions C87_seldom_fails.

(* C87: n exact samples for two networks whose entries differ by at most g *)
Theorem C87_near_network :
  forall (R : rcfType) (cis : R -> (ComplexField.complex_numFieldType R)) (m k p : nat) (s : seq nat) (M1 M0 : (seq (seq (ComplexField.complex_numFieldType R)))) (g : R) (rand : nat -> rprog R (res (seq R)))
    (S : seq (seq R)) (W : seq R -> R) (e e0 : seq R -> nat) (D D0 : seq R -> (seq (seq (ComplexField.complex_numFieldType R)))) (n : nat) (f : seq (seq nat) -> R),
  cis_ok cis -> (0 < m)%N -> size s = m -> (k <= m)%N -> 0 <= g -> subunitary m M0 -> close m g M1 M0 ->
  always (fun r => exists2 d, r = Ok d & d \in S) (rand k) ->
  (forall f, has_exp (on_ok f) (rand k) (\sum_(d <- S) W d * f d)) ->
  (forall d, d \in S -> dilation m (e d) (approx_net cis m M1 k d) (D d)) ->
  (forall d, d \in S -> dilation m (e0 d) (approx_net cis m M0 k d) (D0 d)) ->
  (forall L, 0 <= f L <= 1) ->
  `|iid_exp (lcomps m (approx_total k p s)) (bobs_law k p s S W e D) n f
    - iid_exp (lcomps m (approx_total k p s)) (bobs_law k p s S W e0 D0) n f| <= n%:R * near_network_error g m k p s.
Proof. exact C87_near_network_lemma. Qed.
Print Assumptions C87_near_network.

(* C87: a new object and its first call, compared with exact samples for the network M0 itself *)
Theorem C87_from_the_network :
  forall (R : rcfType) (u c d dv e1 : R) (A : arith (ComplexField.complex_numFieldType R)) (B : arith R) (f_sqrt : R -> R) (f_dot : seq (ComplexField.complex_numFieldType R) -> seq (ComplexField.complex_numFieldType R) -> (ComplexField.complex_numFieldType R))
    (cis f_cis : R -> (ComplexField.complex_numFieldType R)) (f_root : nat -> nat -> (ComplexField.complex_numFieldType R)) (svd : (seq (seq (ComplexField.complex_numFieldType R))) -> res ((seq (seq (ComplexField.complex_numFieldType R))) * seq R * (seq (seq (ComplexField.complex_numFieldType R))))) (m : nat) (M M0 V U : (seq (seq (ComplexField.complex_numFieldType R)))) (q : seq R) (t : R) (N0 : (seq (seq (ComplexField.complex_numFieldType R))))
    (cpu : nat) (a : any_calc (ComplexField.complex_numFieldType R)) (modes threads : int) (rand : nat -> rprog R (res (seq R)))
    (f_abs : (ComplexField.complex_numFieldType R) -> R) (f_sum f_check : seq R -> R) (f_search : R -> seq R -> nat) (fuel N : nat) (s : seq nat)
    (S : seq (seq R)) (W : seq R -> R) (e0 : seq R -> nat) (D0 : seq R -> (seq (seq (ComplexField.complex_numFieldType R)))) (j : int) (f : seq (seq nat) -> R),
  0 <= u -> 0 <= c -> 0 <= d -> 0 <= dv -> 0 <= e1 ->
  accurate (u%:C)%C A -> accurate u B -> accurate_sqrt u f_sqrt -> accurate_dot (u%:C)%C f_dot ->
  cis_ok cis -> accurate_cis c cis f_cis -> accurate_root c cis f_root ->
  (forall z, `|f_abs z - py_abs z| <= u * py_abs z) -> accurate_sum u f_sum -> accurate_sum u f_check -> right_search f_search -> (0 < N)%N ->
  (0 < m)%N -> size s = m -> (9 * (m + m) + 4)%:R * u <= (2%:R ^+ 27)^-1 ->
  is_square m M -> calc_matrix a = M -> (0 < cpu)%N ->
  svd M = Ok (V, q, U) -> near_svd m d M0 V q U -> subunitary m M0 -> common_losses m M0 t N0 -> is_square m N0 ->
  divisor_error u d <= t / 2%:R -> loss_sv_error u d <= (10%:R ^+ 8)^-1 ->
  let eps := extract_error u d t m in
  stable_svd svd m (approx_net_error u c eps m) dv e1 ->
  exists x, fl_new_bobs B f_sqrt f_dot svd cpu a modes threads = Ok x /\
  let k := bo_modes x in let p := sumn (take k s) in let lk := fl_kept_losses B (bo_losses x) in
  let n := (bo_threads x * (`|j| %/ bo_threads x).+1)%N in
  ((forall s', s' \in approx_inputs k p s -> (\prod_(y <- s') y.+1 <= fuel)%N) ->
  always (fun r => exists2 d, r = Ok d & d \in S) (rand k) ->
  (forall f, has_exp (on_ok f) (rand k) (\sum_(d <- S) W d * f d)) ->
  (forall d, d \in S -> dilation m (e0 d) (approx_net cis m M0 k d) (D0 d)) -> 1 <= j -> (forall L, 0 <= f L <= 1) ->
  exists v, has_exp (on_ok (fun y => f y.1)) (fl_bobs_simulate A B f_sqrt f_dot f_root f_cis f_abs f_sum f_check f_search fuel N svd rand s j x) v /\
    `|v - iid_exp (lcomps m (approx_total k p s)) (bobs_law k p s S W e0 D0) n f| <=
      n%:R * (bobs_error u dv (approx_net_error u c eps m + e1) lk N m k p s
              + near_network_error (Num.sqrt (divisor_error u d + (10%:R ^+ 8)^-1)) m k p s)).
Proof. exact C87_from_the_network_lemma. Qed.
Print Assumptions C87_from_the_network.
