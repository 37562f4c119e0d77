(* Final forms of the lemmas behind the property theorems: C26-C34 (samplers). *)
From mathcomp Require Import all_ssreflect all_algebra complex zify ring.
From Verif Require Import Base SpecStates Combi SpecPerm SpecBS BsComb BsNorm ModelStates LemStates ModelPerm ModelDist SpecProb ProbMath ModelGcc ModelGccB SpecGcc ProofDist1 ProofSel ProofGcc1 ProofGcc3 ProofGcc4 ProofGcc5 ProofGcc6 ProofGccB2 ProofGccB3 ProofGccU.
Set Implicit Arguments.
Unset Strict Implicit.
Unset Printing Implicit Defensive.
Import Order.TTheory GRing.Theory Num.Theory.
Local Open Scope ring_scope.

Lemma iid_of_exp (R : rcfType) (G : Type) (p : rprog R (res (seq (seq nat) * G))) k S0 (S : pred (seq nat)) P :
  uniq S0 -> S0 =i S -> (forall f, has_exp (on_ok (fun x => f x.1)) p (iid_exp S0 P k f)) ->
  iid_samples p k S P.
Proof.
move=> uS eS H L; apply: has_exp_eq (H (fun x => (x == L)%:R)) _; rewrite iid_prob //; congr (if _ && _ then _ else _).
by apply: eq_all => t; rewrite /= eS.
Qed.

Lemma lossy_list (m n : nat) : (0 < m)%N -> exists L : seq (seq nat),
  [/\ exists f0, forall fuel, (f0 <= fuel)%N -> generate_possible_states fuel (Posz n) (Posz m) true = Ok L,
      forall t, (t \in L) = (size t == m) && (sumn t <= n)%N,
      uniq L & nth [::] L 0 = nseq m 0%N].
Proof.
move=> m0; have [L [E mL sL]] := C04_lemma n m0; exists L.
have tr : transitive (fun a b : seq nat => (sumn a < sumn b)%N || ((sumn a == sumn b) && lexgt a b)).
  move=> y x z /orP[h1|/andP[/eqP e1 l1]] /orP[h2|/andP[/eqP e2 l2]]; apply/orP.
  - by left; apply: ltn_trans h2.
  - by left; rewrite -e2.
  - by left; rewrite e1.
  - by right; rewrite e1 e2 eqxx (lexgt_trans l1 l2).
split=> //; first by apply: (sorted_uniq tr _ sL) => x; rewrite lexgt_irr ltnn andbF.
have : nseq m 0%N \in L by rewrite mL size_nseq eqxx sumn_nseq.
case: L mL sL {E} => [//|h L] mL /= pL; rewrite inE => /orP[/eqP -> //|vin].
have := order_path_min tr pL => /allP/(_ _ vin); rewrite sumn_nseq mul0n ltn0 /= => /andP[/eqP h0 lx].
have := mL h; rewrite mem_head => /esym/andP[/eqP sh _].
have hz : h = nseq m 0%N.
  apply: (@eq_from_nth _ 0%N); first by rewrite size_nseq.
  move=> i il; rewrite nth_nseq (_ : (if _ then _ else _) = 0%N); last by case: ifP.
  apply/eqP; rewrite -leqn0 -[X in (_ <= X)%N]h0 sumnE (big_nth 0%N) big_mkord (bigD1 (Ordinal il)) //= leq_addr //.
by rewrite hz lexgt_irr in lx.
Qed.

Lemma C26_cumulative_search_lemma :
  forall (R : rcfType) (l : seq R) (u : R),
  all (fun x => 0 <= x) l -> 0 < \sum_(x <- l) x -> 0 <= u < 1 ->
  let total := py_sum l in
  let i := cum_search (u * total) 0 0 l in
  [/\ (i < size l)%N, 0 < l`_i
    & forall k, (k < size l)%N ->
      (\sum_(j < k) l`_j / total <= u < \sum_(j < k.+1) l`_j / total) = (i == k)].
Proof.
move=> R l u ge t0 u01 total i; have t1 : 0 < py_sum l by rewrite py_sumE.
have [il p0] := search_pos ge t1 u01; split=> // k kl.
rewrite -(searchE ge t1 u01 kl) /in_step.
have e j : (j <= size l)%N -> \sum_(i < j) [seq x / py_sum l | x <- l]`_i = \sum_(i < j) l`_i / total.
  move=> jl; apply: eq_bigr => i' _; rewrite (nth_map 0) //; exact: leq_trans (ltn_ord i') jl.
by rewrite !e // ltnW.
Qed.

Lemma C26_selection_probability_lemma :
  forall (R : rcfType) (l : seq R) (k : nat),
  all (fun x => 0 <= x) l -> 0 < \sum_(x <- l) x ->
  has_exp (fun i => (i == k)%:R) (Unif (fun u => Ret (cum_search (u * py_sum l) 0 0 l)))
    (l`_k / \sum_(x <- l) x).
Proof.
move=> R l k ge t0; have t1 : 0 < py_sum l by rewrite py_sumE.
apply: has_exp_eq (has_exp_select (k := fun u => Ret (cum_search (u * py_sum l) 0 0 l)) (val := fun i => (i == k)%:R) ge t1 _) _.
  by move=> i u _ _ _ ->; apply: (@ExpRet _ _ (fun i => (i == k)%:R)).
rewrite -py_sumE; case: (ltnP k (size l)) => kl.
  rewrite (bigD1 (Ordinal kl)) //= eqxx mulr1 big1 ?addr0 // => i /eqP ne.
  by case: eqP => [e|]; rewrite ?mulr0 //; case: ne; apply: val_inj.
rewrite nth_default // mul0r big1 // => i _; case: eqP => [e|]; rewrite ?mulr0 //.
by have := ltn_ord i; rewrite e ltnNge kl.
Qed.

Lemma C26_numpy_choice_any_list_lemma :
  forall (R : rcfType) (p : seq R) (k : nat),
  (has (fun x => x < 0) p || (1 < 2%:R ^+ 26 * `|\sum_(x <- p) x - 1|) -> np_choice p = Ret (Err ValueError)) /\
  (all (fun x => 0 <= x) p -> 2%:R ^+ 26 * `|\sum_(x <- p) x - 1| <= 1 ->
     has_exp (on_ok (fun i => (i == k)%:R)) (np_choice p) (p`_k / \sum_(x <- p) x)).
Proof.
move=> R p k.
have t0 : 0 < 2%:R ^+ 26 :> R by rewrite exprn_gt0 ?ltr0n.
have tE (x : R) : (choice_tol R < x) = (1 < 2%:R ^+ 26 * x).
  by rewrite /choice_tol -[X in X = _](ltr_pmul2l t0) mulfV // gt_eqF.
rewrite /np_choice tE py_sumE; split=> [->//|ge le].
rewrite ifF; last first.
  rewrite ltNge le orbF; apply/negP => /hasP[x xp]; apply/negP; rewrite -leNgt; exact: (allP ge).
set S := \sum_(x <- p) x in le *.
have S0 : 0 < S.
  have S1 : 0 <= S by rewrite /S big_seq_cond sumr_ge0 // => x /andP[xp _]; exact: (allP ge).
  rewrite lt_neqAle S1 andbT eq_sym; apply/eqP => S00; move: le.
  by rewrite S00 sub0r normrN normr1 mulr1 leNgt -{1}(expr0 2%:R) ltr_eexpn2l // ltr1n.
pose w := [seq x / S | x <- p].
have sw : size w = size p by rewrite size_map.
have dw : is_distr w.
  split; first by apply/allP => x /mapP[y yp ->] /=; apply: divr_ge0; [exact: (allP ge)|exact: ltW].
  by rewrite big_map -mulr_suml mulfV // gt_eqF.
have cE : choice_cdf p = choice_cdf w.
  rewrite /choice_cdf sw; apply: eq_map => i.
  have -> : py_sum w = 1 by rewrite py_sumE; case: dw.
  by rewrite divr1 !py_sumE -/S /w -map_take big_map mulr_suml.
rewrite cE; apply: has_exp_eq (has_exp_choice (k := fun u => Ret (Ok (find (fun c => u < c) (choice_cdf w)))) (f := on_ok (fun i => (i == k)%:R)) (val := fun i => (i == k)%:R) dw _) _.
  by move=> i u _ _ _ ei; have -> : (i == k)%:R = on_ok (fun i => (i == k)%:R) (Ok i) :> R by []; rewrite -ei; apply: ExpRet.
rewrite sw; case: (ltnP k (size p)) => kl.
  rewrite (bigD1 (Ordinal kl)) //= eqxx mulr1 big1 ?addr0 => [|i /eqP ne]; first by rewrite (nth_map 0).
  by case: eqP => [e|]; rewrite ?mulr0 //; case: ne; apply: val_inj.
rewrite [in RHS]nth_default // mul0r big1 // => i _; case: eqP => [e|]; rewrite ?mulr0 //.
by have := ltn_ord i; rewrite e ltnNge kl.
Qed.

Lemma C26_numpy_choice_lemma :
  forall (R : rcfType) (w : seq R) (k : nat),
  all (fun x => 0 <= x) w -> \sum_(x <- w) x = 1 ->
  always (fun x => exists i, [/\ x = Ok i, (i < size w)%N & 0 < w`_i]) (np_choice w) /\
  has_exp (on_ok (fun i => (i == k)%:R)) (np_choice w) w`_k.
Proof.
move=> R w k ge e; have dw : is_distr w by split.
rewrite np_choiceE //; split=> [u u01|].
  rewrite /= choice_findE //; eexists; split=> //; first exact: (search_pos1 dw u01).1.
  exact: (search_pos1 dw u01).2.
apply: has_exp_eq (has_exp_choice (k := fun u => Ret (Ok (find (fun c => u < c) (choice_cdf w)))) (val := fun i => (i == k)%:R) dw _) _.
  move=> i u _ _ _ ei; have -> : (i == k)%:R = on_ok (fun i => (i == k)%:R) (Ok i) :> R by [].
  by rewrite -ei; apply: ExpRet.
case: (ltnP k (size w)) => kl.
  rewrite (bigD1 (Ordinal kl)) //= eqxx mulr1 big1 ?addr0 // => i /eqP ne.
  by case: eqP => [ek|]; rewrite ?mulr0 //; case: ne; apply: val_inj.
rewrite nth_default // big1 // => i _; case: eqP => [ek|]; rewrite ?mulr0 //.
by have := ltn_ord i; rewrite ek ltnNge kl.
Qed.

Lemma C27_gcc_exact_lemma :
  forall (R : rcfType) (gray : nat -> seq nat) (fuel m : nat) (U : seq (seq (ComplexField.complex_numFieldType R))) (s : seq nat) (k : nat) (g : gcc R),
  unitary_on m U s -> size s = m -> gray_ok gray (sumn s) -> (\prod_(x <- s) x.+1 <= fuel)%N ->
  calc_matrix (g_calc g) = U ->
  iid_samples (gcc_simulate gray fuel s k g) k (is_state m (sumn s)) (bs_prob U s).
Proof.
move=> R gray fuel m U s k g u ss gr fu e; apply: (@iid_of_exp _ _ _ _ (comps m (sumn s))); first exact: comps_uniq.
  by move=> t; rewrite mem_comps.
by move=> f; apply: gcc_simulate_exp.
Qed.

Lemma C27_gcc_never_fails_lemma :
  forall (R : rcfType) (gray : nat -> seq nat) (fuel m : nat) (U : seq (seq (ComplexField.complex_numFieldType R))) (s : seq nat) (k : nat) (g : gcc R),
  unitary_on m U s -> size s = m -> gray_ok gray (sumn s) -> (\prod_(x <- s) x.+1 <= fuel)%N ->
  calc_matrix (g_calc g) = U ->
  always (fun x => exists L g', [/\ x = Ok (L, g'), size L = k, calc_matrix (g_calc g') = U
      & forall t, t \in L -> is_state m (sumn s) t /\ 0 < bs_prob U s t])
    (gcc_simulate gray fuel s k g).
Proof.
move=> R gray fuel m U s k g u ss gr fu e; apply: always_impl (gcc_simulate_always u ss gr fu k e).
move=> _ [L [g' [-> sL eg aL]]]; exists L, g'; split=> // t /aL [st p0]; split=> //.
by rewrite lt_def p0 bs_prob_ge0.
Qed.

Lemma C28_gcc_shape_lemma :
  forall (R : rcfType) (gray : nat -> seq nat) (fuel : nat) (s : seq nat) (k : nat) (g : gcc R),
  always (if_ok (fun x => size x.1 = k /\ forall t, t \in x.1 -> is_state (size s) (sumn s) t))
    (gcc_simulate gray fuel s k g).
Proof.
move=> R gray fuel s k g; exact: gcc_shape.
Qed.

Lemma C28_mode_assignment_shape_lemma :
  forall (R : rcfType) (gray : nat -> seq nat) (fuel : nat) (s : seq nat) (k : nat) (g : gcc R),
  always (if_ok (fun x => size x.1 = k /\ forall t, t \in x.1 -> is_state (size s) (sumn s) t))
    (ma_simulate gray fuel s k g).
Proof.
move=> R gray fuel s k g; exact: ma_shape.
Qed.

Lemma C28_gcc_b_shape_lemma :
  forall (R : rcfType) (fuel : nat) (s : seq nat) (k : nat) (b : gccb R),
  always (if_ok (fun x => size x.1 = k /\ forall t, t \in x.1 -> is_state (size s) (sumn s) t))
    (gccb_simulate fuel s k b).
Proof.
move=> R fuel s k b; exact: gccb_shape.
Qed.

Lemma C28_uniform_losses_shape_lemma :
  forall (R : rcfType) (gray : nat -> seq nat) (fuel : nat) (s : seq nat) (k : nat) (x : ugcc R),
  always (if_ok (fun y => size y.1 = k /\ forall t, t \in y.1 -> (size t == size (calc_matrix (g_calc (ug_gcc x)))) && (sumn t <= sumn s)%N))
    (ugcc_simulate gray fuel s k x).
Proof.
move=> R gray fuel s k x; exact: ugcc_shape.
Qed.

Lemma C28_gcc_b_uniform_losses_shape_lemma :
  forall (R : rcfType) (fuel : nat) (s : seq nat) (k : nat) (x : ugccb R),
  0 <= ub_eta x <= 1 ->
  always (if_ok (fun x => size x.1 = k /\ forall t, t \in x.1 -> (size t == size s) && (sumn t <= sumn s)%N))
    (ugccb_simulate fuel s k x).
Proof.
move=> R fuel s k x; exact: ugccb_shape.
Qed.

Lemma C29_gcc_history_lemma :
  forall (R : rcfType) (gray : nat -> seq nat) (fuel : nat)
    (broken : gcc_op R -> pyerr -> gcc R -> gcc R) (ops : seq (gcc_op R))
    (a : any_calc (ComplexField.complex_numFieldType R)) (s : seq nat) (k : nat),
  (forall op e g, same_core (g_calc (broken op e g)) (g_calc g)) ->
  always (fun g => same_run (@same_samples _ _ _) (gcc_simulate gray fuel s k g)
      (gcc_simulate gray fuel s k (new_gcc (set_matrix (last_matrix (calc_matrix a) ops) a))))
    (run_gcc_ops (gcc_simulate gray fuel) broken ops (new_gcc a)).
Proof.
move=> R gray fuel broken ops a s k H; apply: history_same => // s' k' g h c; exact: gcc_same.
Qed.

Lemma C29_mode_assignment_history_lemma :
  forall (R : rcfType) (gray : nat -> seq nat) (fuel : nat)
    (broken : gcc_op R -> pyerr -> gcc R -> gcc R) (ops : seq (gcc_op R))
    (a : any_calc (ComplexField.complex_numFieldType R)) (s : seq nat) (k : nat),
  (forall op e g, same_core (g_calc (broken op e g)) (g_calc g)) ->
  always (fun g => same_run (@same_samples _ _ _) (ma_simulate gray fuel s k g)
      (ma_simulate gray fuel s k (new_gcc (set_matrix (last_matrix (calc_matrix a) ops) a))))
    (run_gcc_ops (ma_simulate gray fuel) broken ops (new_gcc a)).
Proof.
move=> R gray fuel broken ops a s k H; apply: history_same => // s' k' g h c; exact: ma_same.
Qed.

Lemma C29_gcc_cache_lemma :
  forall (R : rcfType) (gray : nat -> seq nat) (fuel : nat) (s : seq nat) (k : nat) (g : gcc R),
  same_run (@same_samples _ _ _) (gcc_simulate gray fuel s k g) (nocache_simulate gray fuel s k g).
Proof.
move=> R gray fuel s k g; apply: same_run_impl (gcc_nocache gray fuel s k (core_refl (g_calc g))).
by move=> [x|e] [y|e'] //= [].
Qed.

Lemma C29_mode_assignment_cache_lemma :
  forall (R : rcfType) (gray : nat -> seq nat) (fuel : nat) (s : seq nat) (k : nat) (g : gcc R),
  same_run (@same_samples _ _ _) (ma_simulate gray fuel s k g) (ma_nocache_simulate gray fuel s k g).
Proof.
move=> R gray fuel s k g; apply: same_run_impl (ma_nocache gray fuel s k (core_refl (g_calc g))).
by move=> [x|e] [y|e'] //= [].
Qed.

Lemma C29_gcc_b_history_lemma :
  forall (R : rcfType) (fuel : nat) (s : seq nat) (k : nat) (b c : gccb R),
  calc_matrix (b_calc b) = calc_matrix (b_calc c) ->
  same_run (@same_samples _ _ _) (gccb_simulate fuel s k b) (gccb_simulate fuel s k c).
Proof.
move=> R fuel s k b c e; apply: same_run_impl (gccb_same fuel s k e).
by move=> [x|e1] [y|e2] //= [].
Qed.

Lemma C29_gcc_b_uniform_losses_history_lemma :
  forall (R : rcfType) (fuel : nat) (s : seq nat) (k : nat) (x y : ugccb R),
  calc_matrix (b_calc (ub_b x)) = calc_matrix (b_calc (ub_b y)) -> ub_eta x = ub_eta y ->
  same_run (@same_samples _ _ _) (ugccb_simulate fuel s k x) (ugccb_simulate fuel s k y).
Proof.
move=> R fuel s k b c e e'; apply: same_run_impl (ugccb_same fuel s k e e').
by move=> [x|e1] [y|e2] //= [].
Qed.

Lemma C29_uniform_losses_history_lemma :
  forall (R : rcfType) (gray : nat -> seq nat) (fuel : nat) (s : seq nat) (k : nat) (x y : ugcc R), same_core (g_calc (ug_gcc x)) (g_calc (ug_gcc y)) -> ug_eta x = ug_eta y -> ug_missing x = ug_missing y ->
  same_run (same_res (fun p q => [/\ p.1 = q.1, ug_dist p.2 = ug_dist q.2 & ug_unw p.2 = ug_unw q.2])) (ugcc_simulate gray fuel s k x) (ugcc_simulate gray fuel s k y).
Proof.
by move=> R gray fuel s k x y c e m; exact: ugcc_same.
Qed.

Lemma C29_collected_history_lemma :
  forall (R : rcfType) (gray : nat -> seq nat) (fuel : nat) (accuracy tol : R) (rounds : nat) (s : seq nat) (x y : ugcc R), same_core (g_calc (ug_gcc x)) (g_calc (ug_gcc y)) -> ug_eta x = ug_eta y -> ug_missing x = ug_missing y ->
  same_run (same_res (fun p q => [/\ p.1 = q.1, ug_dist p.2 = ug_dist q.2 & ug_unw p.2 = ug_unw q.2])) (compute_distribution gray fuel accuracy tol rounds s x) (compute_distribution gray fuel accuracy tol rounds s y) /\
  same_run (same_res (fun p q => [/\ p.1 = q.1, ug_dist p.2 = ug_dist q.2 & ug_unw p.2 = ug_unw q.2])) (compute_unweighted gray fuel accuracy tol rounds s x) (compute_unweighted gray fuel accuracy tol rounds s y).
Proof.
by move=> R gray fuel a tol n s x y c e m; split; [exact: distribution_same|exact: unweighted_same].
Qed.

Lemma C30_mode_assignment_exact_lemma :
  forall (R : rcfType) (gray : nat -> seq nat) (fuel m : nat) (U : seq (seq (ComplexField.complex_numFieldType R))) (s : seq nat) (k : nat) (g : gcc R),
  unitary_on m U s -> size s = m -> gray_ok gray (sumn s) -> (\prod_(x <- s) x.+1 <= fuel)%N -> (0 < m)%N ->
  calc_matrix (g_calc g) = U ->
  iid_samples (ma_simulate gray fuel s k g) k (is_state m (sumn s)) (bs_prob U s).
Proof.
move=> R gray fuel m U s k g u ss gr fu m0 e; apply: (@iid_of_exp _ _ _ _ (comps m (sumn s))); first exact: comps_uniq.
  by move=> t; rewrite mem_comps.
by move=> f; apply: ma_simulate_exp => //; rewrite -size_eq0 ss -lt0n.
Qed.

Lemma C31_gcc_b_exact_lemma :
  forall (R : rcfType) (fuel m : nat) (U : seq (seq (ComplexField.complex_numFieldType R))) (s : seq nat) (k : nat) (b : gccb R),
  unitary_on m U s -> size s = m -> (\prod_(x <- s) x.+1 <= fuel)%N ->
  calc_matrix (b_calc b) = U ->
  iid_samples (gccb_simulate fuel s k b) k (is_state m (sumn s)) (bs_prob U s).
Proof.
move=> R fuel m U s k b u ss fu e; apply: (@iid_of_exp _ _ _ _ (comps m (sumn s))); first exact: comps_uniq.
  by move=> t; rewrite mem_comps.
by move=> f; apply: gccb_simulate_exp.
Qed.

Lemma C31_gcc_b_never_fails_lemma :
  forall (R : rcfType) (fuel m : nat) (U : seq (seq (ComplexField.complex_numFieldType R))) (s : seq nat) (k : nat) (b : gccb R),
  unitary_on m U s -> size s = m -> (\prod_(x <- s) x.+1 <= fuel)%N ->
  calc_matrix (b_calc b) = U ->
  always (fun x => exists L b', [/\ x = Ok (L, b'), size L = k, calc_matrix (b_calc b') = U
      & forall t, t \in L -> is_state m (sumn s) t])
    (gccb_simulate fuel s k b).
Proof.
move=> R fuel m U s k b u ss fu e; exact: gccb_simulate_always.
Qed.

Lemma C32_uniform_losses_exact_lemma :
  forall (R : rcfType) (gray : nat -> seq nat) (m : nat) (U : seq (seq (ComplexField.complex_numFieldType R))) (s : seq nat) (eta : R) (k : nat),
  unitary_on m U s -> size s = m -> (0 < m)%N -> gray_ok gray (sumn s) -> 0 <= eta <= 1 ->
  exists f0, forall (fuel : nat) (x : ugcc R), (f0 <= fuel)%N ->
  calc_matrix (g_calc (ug_gcc x)) = U -> ug_eta x = eta ->
  iid_samples (ugcc_simulate gray fuel s k x) k [pred t | (size t == m) && (sumn t <= sumn s)%N] (uniform_loss_prob U s eta).
Proof.
move=> R gray m U s eta k u ss m0 gr e01; have [L [[f0 E] mL uL hL]] := lossy_list (sumn s) m0.
exists (maxn f0 (\prod_(x <- s) x.+1)) => fuel x; rewrite geq_max => /andP[f1 f2] e1 e2.
apply: (@iid_of_exp _ _ _ _ (lcomps m (sumn s))); first exact: lcomps_uniq.
  by move=> t; rewrite mem_lcomps.
move=> f; apply: (@ugcc_simulate_exp _ _ _ _ _ _ u ss gr f2 L eta (ug_missing x)) => //.
by rewrite ss; exact: E.
Qed.

Lemma C33_gcc_b_uniform_losses_exact_lemma :
  forall (R : rcfType) (fuel m : nat) (U : seq (seq (ComplexField.complex_numFieldType R))) (s : seq nat) (eta : R) (k : nat) (x : ugccb R),
  unitary_on m U s -> size s = m -> (\prod_(x <- s) x.+1 <= fuel)%N -> 0 <= eta <= 1 ->
  calc_matrix (b_calc (ub_b x)) = U -> ub_eta x = eta ->
  iid_samples (ugccb_simulate fuel s k x) k [pred t | (size t == m) && (sumn t <= sumn s)%N] (uniform_loss_prob U s eta).
Proof.
move=> R fuel m U s eta k x u ss fu e01 e1 e2; apply: (@iid_of_exp _ _ _ _ (lcomps m (sumn s))); first exact: lcomps_uniq.
  by move=> t; rewrite mem_lcomps.
by move=> f; apply: ugccb_simulate_exp.
Qed.

Lemma C33_gcc_b_uniform_losses_never_fails_lemma :
  forall (R : rcfType) (fuel m : nat) (U : seq (seq (ComplexField.complex_numFieldType R))) (s : seq nat) (eta : R) (k : nat) (x : ugccb R),
  unitary_on m U s -> size s = m -> (\prod_(x <- s) x.+1 <= fuel)%N -> 0 <= eta <= 1 ->
  calc_matrix (b_calc (ub_b x)) = U -> ub_eta x = eta ->
  always (fun y => exists L x', [/\ y = Ok (L, x'), size L = k, calc_matrix (b_calc (ub_b x')) = U /\ ub_eta x' = eta
      & forall t, t \in L -> (size t == m) && (sumn t <= sumn s)%N])
    (ugccb_simulate fuel s k x).
Proof.
move=> R fuel m U s eta k x u ss fu e01 e1 e2; exact: ugccb_simulate_always.
Qed.

Lemma C33_gcc_b_left_attribute_lemma :
  forall (R : rcfType) (fuel m : nat) (U : seq (seq (ComplexField.complex_numFieldType R))) (s : seq nat) (eta : R) (k : nat) (x : ugccb R),
  unitary_on m U s -> size s = m -> (\prod_(x <- s) x.+1 <= fuel)%N -> 0 <= eta <= 1 ->
  calc_matrix (b_calc (ub_b x)) = U -> ub_eta x = eta -> (0 < k)%N ->
  always (fun y => exists L x', y = Ok (L, x') /\ ub_left x' = sumn (last [::] L)) (ugccb_simulate fuel s k x).
Proof.
move=> R fuel m U s eta k x u ss fu e01 e1 e2 k0; exact: (ub_left_always u ss fu e01 e1 e2 k0).
Qed.

Lemma C34_collected_distribution_lemma :
  forall (R : rcfType) (gray : nat -> seq nat) (m : nat) (U : seq (seq (ComplexField.complex_numFieldType R))) (s : seq nat) (eta : R) (k i : nat),
  unitary_on m U s -> size s = m -> (0 < m)%N -> gray_ok gray (sumn s) -> (i <= sumn s)%N ->
  exists (L : seq (seq nat)) (f0 : nat), [/\ uniq L, L =i [pred t | (size t == m) && (sumn t <= sumn s)%N] & forall (fuel : nat) (x : ugcc R),
  (f0 <= fuel)%N -> calc_matrix (g_calc (ug_gcc x)) = U -> ug_eta x = eta ->
  generate_possible_states fuel (Posz (sumn s)) (Posz (size s)) true = Ok L /\
  always (fun y => exists x', [/\ y = Ok x', size (ug_dist x') = size L, size (ug_unw x') = size L
     & forall j, (j < size L)%N ->
       (ug_dist x')`_j \in [:: (if ug_missing x then -1 else 0); uniform_loss_prob U s eta (nth [::] L j)] /\
       (ug_unw x')`_j \in [:: (if ug_missing x then -1 else 0); fixed_loss_prob U s (nth [::] L j)]])
    (moment gray fuel s k i x)].
Proof.
move=> R gray m U s eta k i u ss m0 gr le; have [L [[f0 E] mL uL hL]] := lossy_list (sumn s) m0.
exists L, (maxn f0 (\prod_(x <- s) x.+1)); split=> // fuel x; rewrite geq_max => /andP[f1 f2] e1 e2.
have {}E : generate_possible_states fuel (Posz (sumn s)) (Posz (size s)) true = Ok L by rewrite ss; exact: E.
split=> //.

have [x1 [E1 B1]] := ugcc_startE u ss E mL hL e1 e2 erefl.
rewrite /moment E1 {1}/rpbind [pbind (Ret _) _]/=.
have HA := @u_r_always _ _ _ _ _ _ u ss gr f2 L eta (ug_missing x).
have HS := sample_loop_always (out := fun x => Ok (g_r (ug_gcc x))) k HA B1.
apply: always_rbind; apply: always_impl HS.
move=> _ [S [x2 [-> _ B2 _]]]; rewrite -/(u_reset _).
have [G [z _]] := between_good u ss B2.
apply: always_impl (u_fill_always u ss gr f2 G _) => [_ [x3 [-> [I3 _] _]]|]; last by rewrite z.
exists x3; have [d1 d2 d3] := ui_d I3; split=> // j /d3 [h1 h2]; rewrite !inE.
by split; [case: h1 => ->|case: h2 => ->]; rewrite eqxx ?orbT.
Qed.

Lemma C34_distribution_up_to_accuracy_lemma :
  forall (R : rcfType) (gray : nat -> seq nat) (m : nat) (U : seq (seq (ComplexField.complex_numFieldType R))) (s : seq nat) (eta accuracy tol : R),
  unitary_on m U s -> size s = m -> (0 < m)%N -> gray_ok gray (sumn s) ->
  exists (L : seq (seq nat)) (f0 : nat), [/\ uniq L, L =i [pred t | (size t == m) && (sumn t <= sumn s)%N] & forall (fuel : nat) (x : ugcc R),
  (f0 <= fuel)%N -> calc_matrix (g_calc (ug_gcc x)) = U -> ug_eta x = eta ->
  generate_possible_states fuel (Posz (sumn s)) (Posz (size s)) true = Ok L /\
  forall rounds, always (fun y => y = Err OutOfFuel \/ exists D x', [/\ y = Ok (D, x'), size D = size L,
       forall j, (j < size L)%N -> D`_j \in [:: (if ug_missing x then -1 else 0); uniform_loss_prob U s eta (nth [::] L j)]
     & accuracy - \sum_(p <- D) p <= tol])
    (compute_distribution gray fuel accuracy tol rounds s x)].
Proof.
move=> R gray m U s eta accuracy tol u ss m0 gr; have [L [[f0 E] mL uL hL]] := lossy_list (sumn s) m0.
exists L, (maxn f0 (\prod_(x <- s) x.+1)); split=> // fuel x; rewrite geq_max => /andP[f1 f2] e1 e2.
have {}E : generate_possible_states fuel (Posz (sumn s)) (Posz (size s)) true = Ok L by rewrite ss; exact: E.
split=> //.

move=> rounds; apply: always_impl (dist_always u ss gr f2 E mL hL accuracy tol rounds e1 e2 erefl).
move=> _ [->|[D [x' [-> sD H le]]]]; [by left|right]; exists D, x'; split=> // j /H; rewrite !inE.
by case=> ->; rewrite eqxx ?orbT.
Qed.

Lemma C34_unweighted_up_to_accuracy_lemma :
  forall (R : rcfType) (gray : nat -> seq nat) (m : nat) (U : seq (seq (ComplexField.complex_numFieldType R))) (s : seq nat) (eta accuracy tol : R),
  unitary_on m U s -> size s = m -> (0 < m)%N -> gray_ok gray (sumn s) -> (0 < sumn s)%N ->
  exists (L : seq (seq nat)) (f0 : nat), [/\ uniq L, L =i [pred t | (size t == m) && (sumn t <= sumn s)%N] & forall (fuel : nat) (x : ugcc R),
  (f0 <= fuel)%N -> calc_matrix (g_calc (ug_gcc x)) = U -> ug_eta x = eta ->
  generate_possible_states fuel (Posz (sumn s)) (Posz (size s)) true = Ok L /\
  forall rounds, always (fun y => y = Err OutOfFuel \/ exists D x', [/\ y = Ok (D, x'), size D = size L,
       forall j, (j < size L)%N -> D`_j \in [:: (if ug_missing x then -1 else 0); fixed_loss_prob U s (nth [::] L j)]
     & accuracy - (\sum_(p <- D) p) / (sumn s)%:R <= tol])
    (compute_unweighted gray fuel accuracy tol rounds s x)].
Proof.
move=> R gray m U s eta accuracy tol u ss m0 gr n0; have [L [[f0 E] mL uL hL]] := lossy_list (sumn s) m0.
exists L, (maxn f0 (\prod_(x <- s) x.+1)); split=> // fuel x; rewrite geq_max => /andP[f1 f2] e1 e2.
have {}E : generate_possible_states fuel (Posz (sumn s)) (Posz (size s)) true = Ok L by rewrite ss; exact: E.
split=> //.

move=> rounds; apply: always_impl (unw_always u ss gr f2 E mL hL accuracy tol rounds n0 e1 e2 erefl).
move=> _ [->|[D [x' [-> sD H le]]]]; [by left|right]; exists D, x'; split=> // j /H; rewrite !inE.
by case=> ->; rewrite eqxx ?orbT.
Qed.

Lemma C34_unweighted_vacuum_lemma :
  forall (R : rcfType) (gray : nat -> seq nat) (m : nat) (U : seq (seq (ComplexField.complex_numFieldType R))) (s : seq nat) (eta accuracy tol : R),
  unitary_on m U s -> size s = m -> (0 < m)%N -> gray_ok gray (sumn s) -> sumn s = 0%N ->
  exists (L : seq (seq nat)) (f0 : nat), [/\ uniq L, L =i [pred t | (size t == m) && (sumn t <= sumn s)%N] & forall (fuel : nat) (x : ugcc R),
  (f0 <= fuel)%N -> calc_matrix (g_calc (ug_gcc x)) = U -> ug_eta x = eta ->
  generate_possible_states fuel (Posz (sumn s)) (Posz (size s)) true = Ok L /\
  forall rounds, compute_unweighted gray fuel accuracy tol rounds s x = Ret (Err ZeroDivisionError)].
Proof.
move=> R gray m U s eta accuracy tol u ss m0 gr n0; have [L [[f0 E] mL uL hL]] := lossy_list (sumn s) m0.
exists L, (maxn f0 (\prod_(x <- s) x.+1)); split=> // fuel x; rewrite geq_max => /andP[f1 f2] e1 e2.
have {}E : generate_possible_states fuel (Posz (sumn s)) (Posz (size s)) true = Ok L by rewrite ss; exact: E.
split=> //.

by move=> rounds; exact: (unw_empty gray u ss E mL hL accuracy tol rounds n0 e1 e2 erefl).
Qed.

Lemma C34_full_accuracy_lemma :
  forall (R : rcfType) (gray : nat -> seq nat) (m : nat) (U : seq (seq (ComplexField.complex_numFieldType R))) (s : seq nat) (eta : R),
  unitary_on m U s -> size s = m -> (0 < m)%N -> gray_ok gray (sumn s) -> 0 <= eta <= 1 ->
  exists (L : seq (seq nat)) (f0 : nat), [/\ uniq L, L =i [pred t | (size t == m) && (sumn t <= sumn s)%N] & forall (fuel : nat) (x : ugcc R),
  (f0 <= fuel)%N -> calc_matrix (g_calc (ug_gcc x)) = U -> ug_eta x = eta ->
  generate_possible_states fuel (Posz (sumn s)) (Posz (size s)) true = Ok L /\
  (ug_missing x = false -> forall rounds, always (fun y => y = Err OutOfFuel \/
      exists x', y = Ok ([seq uniform_loss_prob U s eta t | t <- L], x'))
    (compute_distribution gray fuel 1 0 rounds s x))].
Proof.
move=> R gray m U s eta u ss m0 gr e01.
have [L [f0 [uL mL H]]] := C34_distribution_up_to_accuracy_lemma eta 1 0 u ss m0 gr.
exists L, f0; split=> // fuel x f1 e1 e2; have [E {}H] := H fuel x f1 e1 e2; split=> // ms rounds.
apply: always_impl (H rounds) => _ [->|[D [x' [-> sD dD le]]]]; [by left|right]; exists x'; congr (Ok (_, _)).
rewrite ms in dD.
have dle j : (j < size L)%N -> D`_j <= uniform_loss_prob U s eta (nth [::] L j).
  by move=> jl; have := dD j jl; rewrite !inE => /orP[] /eqP ->; rewrite ?uniform_loss_ge0.
have tot : \sum_(j < size L) uniform_loss_prob U s eta (nth [::] L j) = 1.
  rewrite -(@uniform_loss_norm _ m U s eta u) -big_lcomps.
  rewrite -(big_mkord xpredT (fun j => uniform_loss_prob U s eta (nth [::] L j))) -(big_nth [::] xpredT).
  by apply: perm_big; apply: uniq_perm; rewrite ?lcomps_uniq // => t; rewrite mL mem_lcomps.
have eq0 : \sum_(j < size L) (uniform_loss_prob U s eta (nth [::] L j) - D`_j) == 0.
  rewrite eq_le sumr_ge0 ?andbT => [|j _]; last by rewrite subr_ge0 dle.
  by rewrite sumrB tot; move: le; rewrite (big_nth 0) big_mkord sD.
rewrite psumr_eq0 in eq0; last by move=> j _; rewrite subr_ge0 dle.
apply: (@eq_from_nth _ 0); first by rewrite size_map.
move=> j jl; rewrite sD in jl; rewrite (nth_map [::]) //; apply/esym/eqP; rewrite -subr_eq0.
by have := allP eq0 (Ordinal jl); rewrite mem_index_enum => /(_ isT).
Qed.

Lemma C34_new_object_lemma :
  forall (R : rcfType) (gray : nat -> seq nat) (m : nat) (U : seq (seq (ComplexField.complex_numFieldType R))) (s : seq nat) (eta : R),
  unitary_on m U s -> size s = m -> (0 < m)%N -> gray_ok gray (sumn s) -> 0 <= eta <= 1 ->
  exists (L : seq (seq nat)) (f0 : nat), [/\ uniq L, L =i [pred t | (size t == m) && (sumn t <= sumn s)%N] &
  forall (fuel rounds : nat) (a : any_calc (ComplexField.complex_numFieldType R)),
  (f0 <= fuel)%N -> calc_matrix a = U ->
  always (fun y => y = Err OutOfFuel \/ exists x', y = Ok ([seq uniform_loss_prob U s eta t | t <- L], x'))
    (compute_distribution gray fuel 1 0 rounds s (new_ugcc a eta))].
Proof.
move=> R gray m U s eta u ss m0 gr e01.
have [L [f0 [uL mL H]]] := C34_full_accuracy_lemma u ss m0 gr e01.
exists L, f0; split=> // fuel rounds a f1 e1.
by have [_ h] := H fuel (new_ugcc a eta) f1 e1 erefl; apply: h.
Qed.
