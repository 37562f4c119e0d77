(* The strategy with an approximated state in rounded arithmetic: results. *)
From mathcomp Require Import all_ssreflect all_algebra complex.
From mathcomp Require Import ring zify.
From Verif Require Import Base SpecStates Combi SpecPerm PermMath SpecBS BsMath BsComb BsNorm SpecProb ProbMath ModelStates ModelPerm ModelDist ModelGcc ModelGccB ProofGcc3 ProofSel SpecGcc LemGcc ModelNet SpecNet ProofGccB2 ProofSample1
  ProofNet1 ProofNet2 ProofNet7 ModelBobs SpecBobs ProofBobs3 ProofBobs4 ProofBobs5 ModelLState SpecLState ProofLS1 ProofLS2 ProofLS3 ProofLS4.
From Verif Require Import ModelFloat SpecFloat ModelFloatGcc ModelFloatGccB SpecFloatSub SpecFloatGcc SpecFloatGccB ProofFloat ProofFloatGcc2 ProofFloatDist2 ProofFloatGccB2 ProofFloatGccB3 ModelFloatNet SpecFloatNet
  SpecFloatFixed ProofFloatFixed3 ModelFloatLState SpecFloatLState ProofFloatLState1 ProofFloatLState2 ProofFloatLState3 ProofFloatLState4 ProofFloatLState5.
Set Implicit Arguments.
Unset Strict Implicit.
Unset Printing Implicit Defensive.
Import Order.TTheory GRing.Theory Num.Theory.
Local Open Scope ring_scope.
Local Open Scope py_scope.

Section Results.
Variables (R : rcfType) (H : eqType) (hash : seq nat -> H).
Notation C := (ComplexField.complex_numFieldType R).
Notation mat := (seq (seq C)).
Variables (u c eps : R) (A : arith C) (B : arith R) (f_sqrt : R -> R) (f_dot : seq C -> seq C -> C).
Variables (cis f_cis : R -> C) (f_root : nat -> nat -> C).
Variables (f_abs : C -> R) (f_sum f_check : seq R -> R) (f_search : R -> seq R -> nat) (N : nat).
Hypotheses (u0 : 0 <= u) (u8 : u <= 8%:R^-1) (c0 : 0 <= c) (e0 : 0 <= eps).
Hypotheses (accA : accurate (u%:C)%C A) (accB : accurate u B) (acc_sqrt : accurate_sqrt u f_sqrt).
Hypothesis accD : accurate_dot (u%:C)%C f_dot.
Hypotheses (ok : cis_ok cis) (acc_cis : accurate_cis c cis f_cis) (acc_root : accurate_root c cis f_root).
Hypothesis acc_abs : forall z, `|f_abs z - py_abs z| <= u * py_abs z.
Hypotheses (acc_sum : accurate_sum u f_sum) (acc_check : accurate_sum u f_check) (srch : right_search f_search) (N0 : (0 < N)%N).
Variables (m h : nat) (U : mat) (eta : R) (s : seq nat).
Hypotheses (uU : unitary m U) (h0 : (0 < h)%N) (hm : (h < m)%N) (ss : size s = m)
  (eta01 : 0 <= eta <= 1) (le1 : all (fun n => n <= 1)%N (take h s)) (inj : no_collision hash (take h s)).
Variables (rand : nat -> rprog R (res (seq R))) (fuel : nat).
Hypothesis fu : (2 ^ h * (sumn (drop h s)).+1 <= fuel)%N.
Variables (S : seq (seq R)) (W : seq R -> R).
Hypotheses (randS : always (fun r => exists2 d, r = Ok d & d \in S) (rand (m - h)))
  (randE : forall f, has_exp (on_ok f) (rand (m - h)) (\sum_(d <- S) W d * f d)).
Let m0 : (0 < m)%N. Proof. exact: leq_ltn_trans hm. Qed.
Let km : (m - h <= m)%N. Proof. exact: leq_subr. Qed.
Notation shuf := (@np_shuffle R).
Notation isof := (fl_lstate_of A B f_sqrt f_root m U eps h eta).
Notation law := (lstate_law cis m h U eta s S W).
Notation err := (lstate_error u c eps eta N m h s).

Lemma sum_shuffle : \sum_(sigma <- permutations (iota 0 m)) (m`!%:R)^-1 = 1 :> R.
Proof.
have h1 := np_shuffle_exp (fun=> 1 : R) m0.
have h2 : has_exp (on_ok (fun=> 1 : R)) (shuf (iota 0 m)) 1.
  apply: has_exp_always (has_exp_const 1 h1) _.
  by apply: always_impl (np_shuffle_always R m0) => _ [d -> _].
by rewrite -[RHS](has_exp_fun h1 h2) mulr_suml; apply: eq_bigr => q _; rewrite mul1r.
Qed.

Lemma sum_rand : \sum_(d <- S) W d = 1.
Proof.
have h1 := randE (fun=> 1 : R).
have h2 : has_exp (on_ok (fun=> 1 : R)) (rand (m - h)) 1.
  apply: has_exp_always (has_exp_const 1 h1) _.
  by apply: always_impl randS => _ [d -> _].
by rewrite -(has_exp_fun h1 h2); apply: eq_bigr => q _; rewrite mulr1.
Qed.

Lemma sum_law : \sum_(t <- lcomps m (sumn s)) law t = 1.
Proof.
transitivity (\sum_(t <- lcomps m (sumn s)) law t * (fun=> 1) t); first by apply: eq_bigr => t _; rewrite mulr1.
rewrite -(law_sum cis U eta h0 hm ss (subs_uniq (take h s)) (fun=> erefl) S W (fun=> 1)).
have dA := approx_distr h ss eta01; have dL := left_distr eta01 (subs_uniq (take h s)) (fun=> erefl) le1.
have iv K l : substate K (take h s) -> (l <= sumn (drop h s))%N -> input_value cis m h U S W (fun=> 1) K l = 1.
  move=> sK ll; have [z1 z2 z3 z4] := moved_facts eta h0 hm ss [::] le1 fu sK ll.
  rewrite /input_value -[RHS]sum_rand; apply: eq_bigr => d _; rewrite -[RHS]mulr1; congr (_ * _).
  rewrite -[RHS]sum_shuffle; apply: eq_big_seq => sigma ps; rewrite -[RHS]mulr1; congr (_ * _).
  transitivity (\sum_(t <- comps m (sumn (moved m h K l))) bs_prob (approx_net cis m (permuted m U sigma) (m - h) d) (moved m h K l) t).
    by rewrite z2; apply: eq_bigr => t _; rewrite mulr1.
  apply: bs_prob_norm; apply: unitary_is_on => //.
  by apply: (approx_unitary (d := d) ok m0 km (permuted_unitary uU ps)) => [|i j il jl]; [exact: rect_tab|rewrite ent_tab].
have [_] := dA; rewrite big_map /approx_list hm big_map => eA1; rewrite -[RHS]eA1.
apply: eq_big_seq => l; rewrite mem_iota ltnS => ll; rewrite /approx_wt /= sumn_nseq mul0n addn0 -[RHS]mulr1; congr (_ * _).
have [_] := dL; rewrite big_map => eL1; rewrite -[RHS]eL1; apply: eq_big_seq => K; rewrite mem_subs => sK.
by rewrite iv // mulr1.
Qed.

Variable x : lstate R.
Hypothesis ox : isof x.
Hypotheses (small_m : (9 * m + 4)%:R * u <= (2%:R ^+ 27)^-1)
  (small_a : (9 * (sumn (drop h s)).+1 + 4)%:R * u <= (2%:R ^+ 27)^-1)
  (small_l : (9 * (code_number (take h s) + 2) + 4)%:R * u <= (2%:R ^+ 27)^-1).

Lemma fl_lstate_simulate_exp (k : int) (f : seq (seq nat) -> R) : 1 <= k -> (forall Q, 0 <= f Q <= 1) ->
  exists v, has_exp (on_ok (fun z => f z.1))
      (fl_lstate_simulate A B f_dot f_cis hash f_check f_search N rand shuf f_abs f_sum fuel s k x) v /\
    `|v - iid_exp (lcomps m (sumn s)) law `|k| f| <= `|k|%:R * err.
Proof.
move=> k1 f01; rewrite /fl_lstate_simulate ltNge k1 [~~ true]/=.
have [y [L [es oy [eA ewA] [eL sL nL] [uL mL eC eT]]]] := fl_startE u0 u8 accB eta01 hm ss ox inj.
have t0 : (0 < ls_threads y)%N by case: oy.
have [loads [ed sz sml _]] := distribute_spec `|k| t0; rewrite es rpbind_ok ed rpbind_ok.
have [v [Hv v01 hv]] := threads_napx u0 u8 c0 e0 accA accB acc_sqrt accD ok acc_cis acc_root acc_abs acc_sum acc_check srch N0
  uU h0 hm ss eta01 le1 fu randS randE small_m small_a small_l oy eA ewA eL sL nL uL mL
  (f := fun z : seq (seq nat) * lstate R => f z.1) loads (cont := fun L => Ret (Ok (L, y))) (E := f) (lexx 0)
  (fun Q => napx_ret (f := fun z : seq (seq nat) * lstate R => f z.1) (y := (Q, y)) (f01 Q)).
by exists v; rewrite -sml -[X in _ <= X]addr0.
Qed.

Lemma fl_matrix_always : always (fun r => exists d, r = Ok d) (rand (m - h)) -> always (fun r => exists d sigma Y, [/\ r = Ok Y, is_square m Y, sigma \in permutations (iota 0 m),
      unitary m (approx_net cis m (permuted m U sigma) (m - h) d)
    & close m (approx_net_error u c eps m) Y (approx_net cis m (permuted m U sigma) (m - h) d)])
  (fl_lstate_matrix f_dot f_cis rand shuf x).
Proof.
move=> ra; have [[sq cl] o2 o3 o4 o5] := ox.
rewrite (fl_ls_matrixE f_dot f_cis u0 u8 c0 accA accB acc_sqrt ok acc_root hm rand ox).
apply: always_rbind; apply: always_rbind; apply: always_impl ra => _ [d ->].
have [P [eP _ _]] := phasesE f_cis km d.
rewrite -[fl_phases_matrix_first _ _ _ _]/(phases_matrix_first f_cis (m - h) m d) eP.
apply: always_rbind; apply: always_impl (np_shuffle_always R m0) => _ [sigma -> ps].
have [M [eM sM uD cM]] := fl_net_step u0 u8 c0 e0 accA accB acc_sqrt accD ok acc_cis acc_root m0 km uU sq cl o5 d ps.
move: eM; rewrite /fl_net_calc -[fl_phases_matrix_first _ _ _ _]/(phases_matrix_first f_cis (m - h) m d) eP [rbind (Ok P) _]/=.
case: np_columns => // V; rewrite [rbind (Ok V) _]/= rpbind_ok.
case: fl_matmul => // X; rewrite [rbind (Ok X) _]/= rpbind_ok => ->.
by exists d, sigma, M.
Qed.
End Results.
