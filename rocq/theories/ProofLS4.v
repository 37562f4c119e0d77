(* The lossy-state sampler: the law of the samples. *)
From mathcomp Require Import all_ssreflect all_algebra complex.
From mathcomp Require Import ring zify.
From Verif Require Import Base SpecStates Combi SpecPerm PermMath SpecBS BsMath BsComb BsNorm.
From Verif Require Import ModelStates ModelPerm ModelDist SpecProb ProbMath ModelGcc ModelGccB ProofGcc3 ProofSel SpecGcc LemGcc ModelNet SpecNet.
From Verif Require Import ProofGccB2 ProofNet1 ProofNet2 ProofNet5 ProofNet7 ProofBobs1 ProofBobs2 ProofBobs3 ProofBobs4 ProofBobs5.
From Verif Require Import ModelBobs ModelLState SpecBobs SpecLState ProofLS1 ProofLS2 ProofLS3.
Set Implicit Arguments.
Unset Strict Implicit.
Unset Printing Implicit Defensive.
Import Order.TTheory GRing.Theory Num.Theory.
Local Open Scope ring_scope.
Local Open Scope py_scope.

Section Sums.
Variable V : zmodType.
Lemma out3 (A B D : Type) (a : seq A) (b : seq B) (d : seq D) (F : A -> B -> D -> V) :
  \sum_(i <- a) \sum_(j <- b) \sum_(t <- d) F i j t = \sum_(t <- d) \sum_(i <- a) \sum_(j <- b) F i j t.
Proof. by rewrite [RHS]exchange_big; apply: eq_bigr => i _; rewrite exchange_big. Qed.
Lemma out4 (A B D E : Type) (a : seq A) (b : seq B) (d : seq D) (e : seq E) (F : A -> B -> D -> E -> V) :
  \sum_(i <- a) \sum_(j <- b) \sum_(t <- d) \sum_(u <- e) F i j t u =
  \sum_(u <- e) \sum_(i <- a) \sum_(j <- b) \sum_(t <- d) F i j t u.
Proof. by rewrite [RHS]exchange_big; apply: eq_bigr => i _; rewrite out3. Qed.
Lemma out5 (A B D E G : Type) (a : seq A) (b : seq B) (d : seq D) (e : seq E) (g : seq G) (F : A -> B -> D -> E -> G -> V) :
  \sum_(i <- a) \sum_(j <- b) \sum_(t <- d) \sum_(u <- e) \sum_(v <- g) F i j t u v =
  \sum_(v <- g) \sum_(t <- d) \sum_(u <- e) \sum_(j <- b) \sum_(i <- a) F i j t u v.
Proof.
transitivity (\sum_(v <- g) \sum_(i <- a) \sum_(j <- b) \sum_(t <- d) \sum_(u <- e) F i j t u v).
  by rewrite [RHS]exchange_big; apply: eq_bigr => i _; rewrite out4.
apply: eq_bigr => v _; transitivity (\sum_(t <- d) \sum_(i <- a) \sum_(j <- b) \sum_(u <- e) F i j t u v).
  exact: out3.
apply: eq_bigr => t _; rewrite out3; apply: eq_bigr => u _; exact: exchange_big.
Qed.
Lemma comps_sum m a n (F : seq nat -> V) : (a <= n)%N ->
  \sum_(t <- comps m a) F t = \sum_(t <- lcomps m n | sumn t == a) F t.
Proof.
move=> le; rewrite -[RHS]big_filter; apply: perm_big; apply: uniq_perm; rewrite ?filter_uniq ?lcomps_uniq ?comps_uniq //.
move=> t; rewrite mem_filter mem_comps mem_lcomps /is_state; case: (sumn t =P a) => [->|_]; by rewrite ?le ?andbT ?andbF.
Qed.
End Sums.

Section Sample.
Variable R : rcfType.
Notation C := (ComplexField.complex_numFieldType R).
Notation mat := (seq (seq C)).
Variable cis : R -> C.
Hypothesis ok : cis_ok cis.
Variables (m h : nat) (U : mat) (eta : R) (s : seq nat) (x : lstate R).
Hypotheses (uU : unitary m U) (h0 : (0 < h)%N) (hm : (h < m)%N) (ss : size s = m)
  (ox : lstate_of cis m U h eta x).
Variable L : seq (seq nat).
Hypotheses (eA : ls_approx x = approx_list m h s) (ewA : ls_approx_w x = map (approx_wt h eta s) (approx_list m h s))
  (eL : ls_exact x = L) (ewL : ls_exact_w x = map (left_weight eta (take h s)) L)
  (uL : uniq L) (mL : L =i subs (take h s)).
Hypotheses (eta01 : 0 <= eta <= 1) (le1 : all (fun n => n <= 1)%N (take h s)).
Variables (rand : nat -> rprog R (res (seq R))) (fuel : nat).
Notation shuf := (@np_shuffle R).
Hypothesis fu : (2 ^ h * (sumn (drop h s)).+1 <= fuel)%N.
Let m0 : (0 < m)%N. Proof. exact: leq_ltn_trans hm. Qed.
Let hm' : (h <= m)%N. Proof. exact: ltnW. Qed.
Let dA : is_distr (map (approx_wt h eta s) (approx_list m h s)). Proof. exact: approx_distr. Qed.
Let dL := left_distr eta01 uL mL le1.

Lemma moved_facts K l : substate K (take h s) -> (l <= sumn (drop h s))%N ->
  [/\ size (moved m h K l) = m, sumn (moved m h K l) = (sumn K + l)%N, (sumn K + l <= sumn s)%N
    & (\prod_(y <- moved m h K l) y.+1 <= fuel)%N].
Proof.
move=> sK ll; have [zK _] := substateP _ _ sK; rewrite size_takel ?ss // in zK.
rewrite /moved size_cat /= size_nseq zK sumn_cat /= sumn_nseq mul0n addn0; split=> //; first by lia.
  by rewrite -[s in X in (_ <= X)%N](cat_take_drop h) sumn_cat; have := substate_sumn sK; lia.
apply: leq_trans fu; rewrite big_cat big_cons /= [X in (_ * (_ * X))%N]big1_seq ?muln1; last first.
  by move=> i /andP[_ /nseqP[-> _]].
apply: leq_mul => //; rewrite -zK.
have : all (fun n => n <= 1)%N K.
  apply/(all_nthP 0%N) => i il; have [_ /(_ i)] := substateP _ _ sK; move/leq_trans; apply.
  by have /(all_nthP 0%N)/(_ i) := le1; apply; rewrite size_takel ?ss // -zK.
elim: (K) => [|y K' IH] /=; first by rewrite big_nil.
by move=> /andP[y1 /IH h']; rewrite big_cons expnS; apply: leq_mul.
Qed.

Lemma mem_approx a : a \in approx_list m h s -> exists2 l, (l <= sumn (drop h s))%N & a = l :: nseq (m - h).-1 0%N.
Proof. by rewrite /approx_list hm => /mapP[l]; rewrite mem_iota ltnS /= => ll ->; exists l. Qed.

(* the call of the helper strategy *)
Definition ls_tail (s' : bool * seq nat) (A : mat) (g : gccb R) : rprog R (res (seq nat * gccb R)) :=
  draw! y := (if s'.1 && ~~ nilp s'.2 then Ret (Err TypeError)
              else gccb_simulate fuel s'.2 1 (b_set_new_matrix A g)) in
  draw! t := Ret (py_get y.1 0) in
  Ret (Ok (t, y.2)).

Lemma ls_sampleE g : lstate_sample cis rand shuf fuel x g =
  draw! s' := lstate_input x in draw! A := lstate_matrix cis rand shuf x in ls_tail s' A g.
Proof. by []. Qed.

Lemma stackE K l : substate K (take h s) ->
  np_hstack1 K (l :: nseq (m - h).-1 0%N) = (false, moved m h K l).
Proof.
move=> sK; have [zK _] := substateP _ _ sK; rewrite /np_hstack1 /nilp zK size_takel ?ss //.
by rewrite eqn0Ngt h0.
Qed.

Lemma unitary_is_on (A : mat) s' : unitary m A -> size s' = m -> unitary_on m A s'.
Proof.
move=> [sqA oA] sz; split=> // i j i0 j0.
have H k : (0 < nth 0%N s' k)%N -> (k < m)%N by rewrite -sz !ltnNge; apply: contra => le; rewrite nth_default.
exact: oA (H _ i0) (H _ j0).
Qed.

Lemma tail_always (A : mat) K l g : unitary m A -> substate K (take h s) -> (l <= sumn (drop h s))%N ->
  always (fun r => exists t g', [/\ r = Ok (t, g'), size t = m & sumn t = (sumn K + l)%N]) (ls_tail (false, moved m h K l) A g).
Proof.
move=> uA sK ll; have [z1 z2 z3 z4] := moved_facts sK ll.
have eB : calc_matrix (b_calc (b_set_new_matrix A g)) = A by rewrite /b_set_new_matrix /=; case: (b_calc g).
rewrite /ls_tail [_ && _]/=; apply: always_rbind.
apply: always_impl (gccb_simulate_always (unitary_is_on uA z1) z1 z4 1 eB) => _ [[|t [|t' Q]] [b' [-> // _ _ al]]].
exists t, b'; have /andP[/eqP -> /eqP ->] := al t (mem_head _ _).
by rewrite z2.
Qed.

Lemma tail_exp (A : mat) K l g f : unitary m A -> substate K (take h s) -> (l <= sumn (drop h s))%N ->
  has_exp (on_ok (fun y => f y.1)) (ls_tail (false, moved m h K l) A g)
    (\sum_(t <- comps m (sumn K + l)) bs_prob A (moved m h K l) t * f t).
Proof.
move=> uA sK ll; have [z1 z2 z3 z4] := moved_facts sK ll.
have eB : calc_matrix (b_calc (b_set_new_matrix A g)) = A by rewrite /b_set_new_matrix /=; case: (b_calc g).
rewrite /ls_tail [_ && _]/=.
apply: has_exp_eq (has_exp_rbind (gccb_simulate_exp (unitary_is_on uA z1) z1 z4 1 (fun Q => f (head [::] Q)) eB) _) _.
  apply: always_impl (gccb_simulate_always (unitary_is_on uA z1) z1 z4 1 eB) => r.
  by move=> [[|t [|t' Q]] [b' [-> // _ _ al]]]; exact: ExpRet.
by rewrite z2.
Qed.

Lemma ls_sample_always g : always (fun r => exists d, r = Ok d) (rand (m - h)) ->
  always (fun r => exists t g', [/\ r = Ok (t, g'), size t = m & (sumn t <= sumn s)%N]) (lstate_sample cis rand shuf fuel x g).
Proof.
move=> ra; rewrite ls_sampleE; apply: always_rbind.
apply: always_impl (input_always eA ewA eL ewL dA dL) => _ [K [a [-> KL /mem_approx[l ll ->]]]].
have sK : substate K (take h s) by rewrite -mem_subs -mL.
rewrite stackE //; apply: always_rbind; apply: always_impl (ls_matrix_always ok m0 uU hm' ox ra) => _ [A -> uA].
apply: always_impl (tail_always g uA sK ll) => _ [t [g' [-> st et]]]; exists t, g'; split=> //.
by rewrite et; have [] := moved_facts sK ll.
Qed.

Variables (S : seq (seq R)) (W : seq R -> R).
Hypotheses (randS : always (fun r => exists2 d, r = Ok d & d \in S) (rand (m - h)))
  (randE : forall f, has_exp (on_ok f) (rand (m - h)) (\sum_(d <- S) W d * f d)).
Let ra : always (fun r => exists d, r = Ok d) (rand (m - h)).
Proof. by apply: always_impl randS => _ [d -> _]; exists d. Qed.

Definition ls_law (t : seq nat) : R := \sum_(d <- S) W d *
  ((\sum_(sigma <- permutations (iota 0 m)) lstate_prob eta m h (approx_net cis m (permuted m U sigma) (m - h) d) s t) / m`!%:R).

Lemma ls_net_eq d sigma A : ls_net_of cis m U (m - h) d sigma A -> A = approx_net cis m (permuted m U sigma) (m - h) d.
Proof.
move=> [[sA _] hA]; apply: (@mxof_inj _ m m) => //; first exact: rect_tab.
by apply/matrixP => i j; rewrite !mxofE hA.
Qed.

Lemma ls_sample_exp g f : has_exp (on_ok (fun y => f y.1)) (lstate_sample cis rand shuf fuel x g)
  (\sum_(t <- lcomps m (sumn s)) ls_law t * f t).
Proof.
pose q K l d sigma := bs_prob (approx_net cis m (permuted m U sigma) (m - h) d) (moved m h K l).
pose G (s' : bool * seq nat) : R := let K := take h s'.2 in let l := nth 0%N s'.2 h in
  \sum_(d <- S) W d * ((\sum_(sigma <- permutations (iota 0 m)) \sum_(t <- comps m (sumn K + l)) q K l d sigma t * f t) / m`!%:R).
rewrite ls_sampleE.
have GE K l : substate K (take h s) -> G (false, moved m h K l) =
  \sum_(d <- S) W d * ((\sum_(sigma <- permutations (iota 0 m)) \sum_(t <- comps m (sumn K + l)) q K l d sigma t * f t) / m`!%:R).
  move=> sK; have [zK _] := substateP _ _ sK; rewrite size_takel ?ss // in zK.
  by rewrite /G /moved /= take_size_cat // nth_cat zK ltnn subnn.
apply: has_exp_eq (has_exp_rbind (input_exp eA ewA eL ewL dA dL G) _) _.
  apply: always_impl (input_always eA ewA eL ewL dA dL) => _ [K [a [-> KL /mem_approx[l ll ->]]]].
  have sK : substate K (take h s) by rewrite -mem_subs -mL.
  rewrite stackE // GE //.
  apply: has_exp_rbind (ls_matrix_exp (f := fun A => \sum_(t <- comps m (sumn K + l)) bs_prob A (moved m h K l) t * f t) ok m0 uU hm' ox randS randE _) _.
    by move=> A d sigma _ _ /ls_net_eq ->.
  apply: always_impl (ls_matrix_always ok m0 uU hm' ox ra) => _ [A -> uA].
  exact: tail_exp.
pose T l K d sigma t : R := if (sumn K + l == sumn t)%N then
  left_weight eta (take h s) K * binomial_weight (sumn (drop h s)) eta l * (W d / m`!%:R) * q K l d sigma t * f t else 0.
transitivity (\sum_(l <- iota 0 (sumn (drop h s)).+1) \sum_(K <- subs (take h s)) \sum_(d <- S)
   \sum_(sigma <- permutations (iota 0 m)) \sum_(t <- lcomps m (sumn s)) T l K d sigma t).
  rewrite {1}/approx_list hm big_map; apply: eq_big_seq => l; rewrite mem_iota ltnS /= => ll.
  rewrite (perm_big (subs (take h s))); last by apply: uniq_perm; rewrite ?subs_uniq.
  rewrite mulr_sumr; apply: eq_big_seq => K; rewrite mem_subs => sK.
  have [z1 z2 z3 z4] := moved_facts sK ll.
  rewrite stackE // GE // !mulr_sumr; apply: eq_bigr => d _; rewrite mulr_suml !mulr_sumr; apply: eq_bigr => sigma _.
  rewrite mulr_suml !mulr_sumr (comps_sum _ _ z3) big_mkcond; apply: eq_bigr => t _.
  rewrite /T eq_sym; case: ifP => // _.
  by rewrite /approx_wt /= sumn_nseq mul0n addn0; move: (m`!%:R^-1) => u; ring.
rewrite out5; apply: eq_bigr => t _; rewrite /ls_law mulr_suml; apply: eq_bigr => d _.
rewrite mulr_suml [in RHS]mulr_sumr [RHS]mulr_suml; apply: eq_bigr => sigma _.
rewrite /lstate_prob mulr_suml [in RHS]mulr_sumr [RHS]mulr_suml; apply: eq_bigr => K _.
rewrite mulr_suml [in RHS]mulr_sumr [RHS]mulr_suml -[X in iota _ X](subn0 (sumn _).+1) -/(index_iota _ _) big_mkord [RHS]big_mkcond.
apply: eq_bigr => l _; rewrite /T /q; case: ifP => // _.
by move: (m`!%:R^-1) => u; ring.
Qed.
End Sample.
