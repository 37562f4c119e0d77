(* The lossy-state sampler: simulate. *)
From mathcomp Require Import all_ssreflect all_algebra complex.
From mathcomp Require Import ring zify.
From Verif Require Import Base SpecStates Combi SpecPerm PermMath SpecBS BsMath BsComb BsNorm.
From Verif Require Import ModelStates ModelPerm ModelDist SpecProb ProbMath ModelGcc ModelGccB ProofGcc3 ProofSel SpecGcc LemGcc ModelNet SpecNet.
From Verif Require Import ProofGccB2 ProofNet1 ProofNet2 ProofNet5 ProofNet7 ProofBobs1 ProofBobs2 ProofBobs3 ProofBobs4 ProofBobs5.
From Verif Require Import ModelBobs ModelLState SpecBobs SpecLState ProofLS1 ProofLS2 ProofLS3 ProofLS4.
Set Implicit Arguments.
Unset Strict Implicit.
Unset Printing Implicit Defensive.
Import Order.TTheory GRing.Theory Num.Theory.
Local Open Scope ring_scope.
Local Open Scope py_scope.

Lemma threads_first v b : (0 < b)%N -> (0 < v)%N -> exists k L, distribute_uniformly v b = Ok (k.+1 :: L).
Proof.
move=> b0 v0; rewrite distributeE //; case e: (v %% b)%N => [|r]; last by exists (v %/ b)%N; eexists; reflexivity.
rewrite subn0; have e2 := divn_eq v b; case: (v %/ b)%N e2 => [|q] e2; first by move: v0; rewrite e2 e.
by exists q; case: (b) b0 => [//|b'] _; eexists; reflexivity.
Qed.

(* an exception in the first sample of the first thread *)
Lemma simulate_raises (R : rcfType) (H : eqType) (hash : seq nat -> H) cis rand shuf fuel s (c : int) (x y : lstate R) err :
  1 <= c -> lstate_start hash s x = Ok y -> (0 < ls_threads y)%N ->
  (forall g, always (fun r => r = Err err) (lstate_sample cis rand shuf fuel y g)) ->
  always (fun r => r = Err err) (lstate_simulate hash cis rand shuf fuel s c x).
Proof.
move=> c1 es T0 hs; rewrite /lstate_simulate ltNge c1 [~~ true]/= es rpbind_ok.
have c0 : (0 < `|c|)%N by case: c c1.
have [k [L ->]] := threads_first T0 c0; rewrite rpbind_ok [thread_loop _ _]/=.
have hp : always (fun r => r = Err err) (lstate_parallel cis rand shuf fuel y k.+1).
  rewrite /lstate_parallel; apply: always_rbind.
  have : always (fun r => r = Err err) (sample_loop (fun st => lstate_sample cis rand shuf fuel y st.2) (fun st => Ok st.1)
     k.+1 ([::], new_gccb (ls_calc y))).
    rewrite [sample_loop _ _ _ _]/=; apply: always_rbind; apply: always_impl (hs _) => _ ->; by [].
  by apply: always_impl => _ ->.
apply: always_rbind; apply: always_rbind; apply: always_impl hp => _ ->; by [].
Qed.

Section Simulate.
Variable R : rcfType.
Notation C := (ComplexField.complex_numFieldType R).
Notation mat := (seq (seq C)).
Variables (H : eqType) (hash : seq nat -> H) (cis : R -> C).
Hypothesis ok : cis_ok cis.
Variables (m h : nat) (U : mat) (eta : R) (s : seq nat) (x : lstate R).
Hypotheses (uU : unitary m U) (ss : size s = m)
  (ox : lstate_of cis m U h eta x) (eta01 : 0 <= eta <= 1) (inj : no_collision hash (take h s)).
Variables (rand : nat -> rprog R (res (seq R))) (fuel : nat).
Notation shuf := (@np_shuffle R).
Hypothesis ra : always (fun r => exists d, r = Ok d) (rand (m - h)).
Let sq : is_square m U. Proof. by case: uU. Qed.

Lemma start_of_threads y : lstate_of cis m U h eta y -> (0 < ls_threads y)%N. Proof. by case. Qed.

(* the weights do not add up to 1 *)
Lemma ls_bunched (c : int) : (h <= m)%N -> 1 <= c ->
  @choice_tol R < 1 - \prod_(k <- take h s) mode_total eta k ->
  always (fun r => r = Err ValueError) (lstate_simulate hash cis rand shuf fuel s c x).
Proof.
move=> hm c1 dev; have [y [L [es oy [eA ewA] [eL ewL] [uL mL eT]]]] := ls_startE sq ss ox inj.
apply: (simulate_raises c1 es (start_of_threads oy)) => g.
rewrite ls_sampleE; apply: always_rbind.
have : always (fun r => r = Err ValueError) (lstate_input y); last by apply: always_impl => _ ->.
rewrite /lstate_input eA ewA eL ewL; apply: always_rbind.
apply: always_impl (choice_always (L := approx_list m h s) _ (approx_distr h ss eta01)) => [_ [i -> il]|]; last by rewrite size_map.
rewrite (py_get_nth [::]) // rpbind_ok /np_choice_of size_map eqxx [~~ true]/= /np_choice.
have -> : has (fun v => v < 0) [seq left_weight eta (take h s) K | K <- L] ||
  (@choice_tol R < `|py_sum [seq left_weight eta (take h s) K | K <- L] - 1|) = true.
  apply/orP; right; rewrite py_sumE big_map (perm_big (subs (take h s))); last by apply: uniq_perm; rewrite ?subs_uniq.
  rewrite left_total distrC ger0_norm //; apply: le_trans (ltW dev).
  by rewrite /choice_tol invr_ge0 exprn_ge0 ?ler0n.
by [].
Qed.

(* the extreme levels *)
Lemma ls_extreme (c : int) : (0 < m)%N -> (h == 0%N) || (h == m) -> 1 <= c -> all (fun n => n <= 1)%N (take h s) ->
  always (fun r => r = Err TypeError) (lstate_simulate hash cis rand shuf fuel s c x).
Proof.
move=> m0 ex c1 le1; have hm : (h <= m)%N by case/orP: ex => /eqP ->.
have [y [L [es oy [eA ewA] [eL ewL] [uL mL eT]]]] := ls_startE sq ss ox inj.
apply: (simulate_raises c1 es (start_of_threads oy)) => g.
rewrite ls_sampleE; apply: always_rbind.
apply: always_impl (input_always eA ewA eL ewL (approx_distr h ss eta01) (left_distr eta01 uL mL le1)) => _ [K [a [-> KL aA]]].
apply: always_rbind; apply: always_impl (ls_matrix_always ok m0 uU hm oy ra) => _ [A -> uA].
have sK : substate K (take h s) by rewrite -mem_subs -mL.
have [zK _] := substateP _ _ sK; rewrite size_takel ?ss // in zK.
have -> : np_hstack1 K a = (true, K ++ a).
  rewrite /np_hstack1; congr (_, _); case/orP: ex => /eqP eh; first by rewrite /nilp zK eh.
  by move: aA; rewrite /approx_list eh ltnn inE => /eqP ->; rewrite orbT.
have -> : ls_tail fuel (true, K ++ a) A g = Ret (Err TypeError) => //.
rewrite /ls_tail (_ : true && ~~ nilp (K ++ a) = true) //= /nilp size_cat zK.
case/orP: ex => /eqP eh; last by rewrite eh addn_eq0 eqn0Ngt m0.
by move: aA; rewrite /approx_list eh m0 => /mapP[l _ ->].
Qed.

Hypotheses (h0 : (0 < h)%N) (hm : (h < m)%N) (le1 : all (fun n => n <= 1)%N (take h s)).
Hypothesis fu : (2 ^ h * (sumn (drop h s)).+1 <= fuel)%N.

Lemma ls_simulate_always (c : int) : 1 <= c ->
  always (fun r => exists L x', [/\ r = Ok (L, x'), size L = `|c|%N,
      forall t, t \in L -> (size t == m) && (sumn t <= sumn s)%N & lstate_of cis m U h eta x'])
    (lstate_simulate hash cis rand shuf fuel s c x).
Proof.
move=> c1; rewrite /lstate_simulate ltNge c1 [~~ true]/=.
have [y [L0 [es oy [eA ewA] [eL ewL] [uL mL eT]]]] := ls_startE sq ss ox inj.
have [loads [ed sz sml _]] := distribute_spec `|c| (start_of_threads oy); rewrite es rpbind_ok ed rpbind_ok.
have K j : always (fun r => exists2 L, r = Ok L & size L = j /\
     forall t, t \in L -> (size t == m) && (sumn t <= sumn s)%N) (lstate_parallel cis rand shuf fuel y j).
  rewrite /lstate_parallel; apply: always_rbind.
  apply: always_impl (@sample_loop_always _ _ _ _ _ (fun=> True) (fun t => (size t == m) && (sumn t <= sumn s)%N) j _ _ I); last first.
    move=> [g h'] _; rewrite /=.
    apply: always_impl (@ls_sample_always _ _ ok _ _ _ _ _ _ uU h0 hm ss oy _ eA ewA eL ewL uL mL eta01 le1 rand fuel fu h' ra).
    by move=> _ [t [h2 [-> st le]]]; exists (t, h2), t; rewrite st eqxx le.
  move=> _ [L [g' [-> sL _ aL]]]; exists L => //; split=> // t tL; apply: aL; exact: aux_in.
apply: always_rbind; apply: always_impl (thread_always K _) => _ [L -> [sL aL]].
by exists L, y; split=> //; rewrite sL sml.
Qed.

Variables (S : seq (seq R)) (W : seq R -> R).
Hypotheses (randS : always (fun r => exists2 d, r = Ok d & d \in S) (rand (m - h)))
  (randE : forall f, has_exp (on_ok f) (rand (m - h)) (\sum_(d <- S) W d * f d)).

Lemma ls_simulate_exp (c : int) f : 1 <= c ->
  has_exp (on_ok (fun z => f z.1)) (lstate_simulate hash cis rand shuf fuel s c x)
    (iid_exp (lcomps m (sumn s)) (ls_law cis m h U eta s S W) `|c| f).
Proof.
move=> c1; rewrite /lstate_simulate ltNge c1 [~~ true]/=.
have [y [L0 [es oy [eA ewA] [eL ewL] [uL mL eT]]]] := ls_startE sq ss ox inj.
have [loads [ed sz sml _]] := distribute_spec `|c| (start_of_threads oy); rewrite es rpbind_ok ed rpbind_ok.
have SA g := @ls_sample_always _ _ ok _ _ _ _ _ _ uU h0 hm ss oy _ eA ewA eL ewL uL mL eta01 le1 rand fuel fu g ra.
have SE g := @ls_sample_exp _ _ ok _ _ _ _ _ _ uU h0 hm ss oy _ eA ewA eL ewL uL mL eta01 le1 rand fuel fu _ _ randS randE g.
have K j : always (fun r => exists L, r = Ok L) (lstate_parallel cis rand shuf fuel y j).
  rewrite /lstate_parallel; apply: always_rbind.
  apply: always_impl (@sample_loop_always _ _ _ _ _ (fun=> True) (fun=> True) j _ _ I); last first.
    move=> [g h'] _; rewrite /=.
    by apply: always_impl (SA h') => _ [t [h2 [-> _ _]]]; exists (t, h2), t.
  by move=> _ [L [g' [-> _ _ _]]]; exists L.
have KE j g : has_exp (on_ok g) (lstate_parallel cis rand shuf fuel y j)
   (iid_exp (lcomps m (sumn s)) (ls_law cis m h U eta s S W) j g).
  rewrite /lstate_parallel.
  apply: has_exp_rbind (@sample_loop_exp _ _ _ _ _ (fun=> True) _ _ _ _ j g _ I) _.
  - move=> [g0 h'] _; rewrite /=.
    by apply: always_impl (SA h') => _ [t [h2 [-> _ _]]]; exists (t, h2), t.
  - by move=> f0 [g0 h'] _; exact: SE.
  by apply: always_true => [[a|e']] //; exact: ExpRet.
rewrite -sml; apply: has_exp_rbind (thread_exp K KE _ f) _.
by apply: always_true => [[a|e']] //; exact: ExpRet.
Qed.
End Simulate.
