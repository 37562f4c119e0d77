(* The strategy for different losses in rounded arithmetic: the law for the original network. *)
From mathcomp Require Import all_ssreflect all_algebra complex.
From mathcomp Require Import ring zify.
From Verif Require Import Base SpecStates Combi SpecPerm PermMath SpecBS BsMath BsComb BsNorm SpecProb ProbMath ModelStates ProofStates1 ModelPerm ModelDist ModelGcc ModelGccB ProofGcc3 ProofSel SpecGcc LemGcc ModelNet SpecNet LemNet ProofGccB2
  ProofNet1 ProofNet2 ProofNet3 ProofNet4 ProofNet5 ProofNet7 ProofThin ModelBobs SpecBobs ProofBobs1 ProofBobs2 ProofBobs3 ProofBobs4 ProofBobs5 ProofPert3.
From Verif Require ProofMat ProofLim5.
From Verif Require Import ModelFloat SpecFloat ModelFloatGcc ModelFloatGccB SpecFloatSub SpecFloatGcc SpecFloatGccB ProofFloat ProofFloat4 ProofFloatSel ProofFloatGcc2 ProofFloatDist2 ProofFloatGccB2 ProofFloatGccB3 ModelFloatNet SpecFloatNet
  ProofFloatNet1 ProofFloatNet2 ProofFloatNet3 ProofFloatNet4 ProofFloatNet5
  SpecFloatFixed ProofFloatFixed1 ProofFloatFixed2 ProofFloatFixed3 ModelFloatLState SpecFloatLState ProofFloatLState1 ProofFloatLState2 ProofFloatLState4 ModelFloatBobs SpecFloatBobs ProofFloatBobs1 ProofFloatBobs2 ProofFloatBobs3 ProofFloatBobs4 ProofFloatBobs5 ProofFloatBobs6 ProofFloatBobs7.
Set Implicit Arguments.
Unset Strict Implicit.
Unset Printing Implicit Defensive.
Import Order.TTheory GRing.Theory Num.Theory.
Local Open Scope ring_scope.
Local Open Scope py_scope.

Section Near.
Variable R : rcfType.
Notation C := (ComplexField.complex_numFieldType R).
Notation mat := (seq (seq C)).
Variables (cis : R -> C) (m k p : nat) (s : seq nat) (M' M0 : mat) (g : R).
Hypotheses (ok : cis_ok cis) (m0 : (0 < m)%N) (ss : size s = m) (km : (k <= m)%N) (g0 : 0 <= g).
Hypotheses (su : subunitary m M0) (cl : close m g M' M0).
Variables (rand : nat -> rprog R (res (seq R))) (S : seq (seq R)) (W : seq R -> R).
Hypotheses (randA : always (fun r => exists2 d, r = Ok d & d \in S) (rand k))
  (randE : forall f, has_exp (on_ok f) (rand k) (\sum_(d <- S) W d * f d)).
Variables (e e0 : seq R -> nat) (D D0 : seq R -> mat).
Hypotheses (dD : forall d, d \in S -> dilation m (e d) (approx_net cis m M' k d) (D d))
  (dD0 : forall d, d \in S -> dilation m (e0 d) (approx_net cis m M0 k d) (D0 d)).

Lemma close_nets d : close m (m%:R * g) (approx_net cis m M' k d) (approx_net cis m M0 k d).
Proof.
move=> i j il jl; rewrite !ent_tab // -sumrB; apply: le_trans (ler_norm_sum _ _ _) _.
apply: (@le_trans _ _ (\sum_(a < m) (g%:C)%C)); last first.
  by rewrite sumr_const card_ord (_ : ((m%:R * g)%:C)%C = (g%:C)%C *+ m) // mulr_natl rmorphMn.
have [Q [_ _ uQ hQ]] := fourierE ok km.
apply: ler_sum => a _; rewrite -!mulrBl !normrM.
have b : `|fourier_of cis k a j| <= 1 by rewrite -hQ //; exact: (unitary_entries uQ (ltn_ord a) jl).
have c : `|phase_of cis k d a| = 1 by rewrite /phase_of; case: ifP => _; rewrite ?(norm_cis ok) ?normr1.
rewrite c mulr1 -[X in _ <= X]mulr1; apply: ler_pmul => //; exact: cl.
Qed.

Lemma phase_weight d : d \in S -> 0 <= W d.
Proof.
move=> dS; have := randE (fun=> 0); rewrite big1 => [h0|d' _]; last by rewrite mulr0.
have h : 0 <= \sum_(d' <- S) W d' * (d' == d)%:R.
  by apply: (has_exp_le h0 (randE _)); apply: always_true => -[d'|er] //=; rewrite ler0n.
have E : \sum_(d' <- S) W d' * (d' == d)%:R = W d *+ count_mem d S.
  rewrite -[RHS]addr0 -iter_addr -big_const_seq [RHS]big_mkcond /=; apply: eq_bigr => d' _.
  by case: eqP => [->|_]; rewrite ?mulr1 ?mulr0.
by move: h; rewrite E pmulrn_lge0 // -has_count has_pred1.
Qed.

Lemma bobs_law_tv : \sum_(t <- lcomps m (approx_total k p s)) `|bobs_law k p s S W e D t - bobs_law k p s S W e0 D0 t|
  <= 2%:R * near_network_error g m k p s.
Proof.
have mg : 0 <= m%:R * g by rewrite mulr_ge0 ?ler0n.
apply: (@le_trans _ _ (\sum_(t <- lcomps m (approx_total k p s)) \sum_(d <- S) W d *
   ((\sum_(s' <- approx_inputs k p s) `|traced_prob (e d) (D d) s' t - traced_prob (e0 d) (D0 d) s' t|) / (size (approx_inputs k p s))%:R))).
  apply: ler_sum => t _; rewrite -sumrB; apply: le_trans (ler_norm_sum _ _ _) _.
  rewrite big_seq [X in _ <= X]big_seq; apply: ler_sum => d dS; rewrite -mulrBr normrM ger0_norm ?phase_weight //.
  apply: ler_wpmul2l; first exact: phase_weight.
  rewrite /bobs_prob -mulrBl -sumrB normrM [`|_^-1|]ger0_norm ?invr_ge0 ?ler0n //.
  by apply: ler_wpmul2r; rewrite ?invr_ge0 ?ler0n //; exact: ler_norm_sum.
apply: (@le_trans _ _ (\sum_(d <- S) W d * (2%:R * near_network_error g m k p s))); last first.
  by rewrite -mulr_suml (rand_sum randA randE) mul1r.
rewrite exchange_big /= big_seq [X in _ <= X]big_seq; apply: ler_sum => d dS; rewrite -mulr_sumr; apply: ler_wpmul2l; first exact: phase_weight.
rewrite -mulr_suml /near_network_error [X in _ <= X]mulrA; apply: ler_wpmul2r; first by rewrite invr_ge0 ler0n.
rewrite exchange_big /= mulr_sumr big_seq [X in _ <= X]big_seq; apply: ler_sum => s' si.
have s's : size s' = m := approx_inputs_size ss km si.
have := @traced_distance R m _ _ _ (e d) (e0 d) (D d) (D0 d) s' mg _ (close_nets d) (dD dS) (dD0 dS) s's.
rewrite (approx_inputs_sumn si); apply.
by apply: subunitary_entries; split; [exact: rect_tab|move=> v; exact: (approx_norm ok km d v su.2)].
Qed.

Lemma bobs_law_near n f : (forall L, 0 <= f L <= 1) ->
  `|iid_exp (lcomps m (approx_total k p s)) (bobs_law k p s S W e D) n f
    - iid_exp (lcomps m (approx_total k p s)) (bobs_law k p s S W e0 D0) n f| <= n%:R * near_network_error g m k p s.
Proof.
move=> f01; apply: iid_exp_tv => //.
- by move=> t _; exact: (bobs_law_ge0 _ _ randE).
- by move=> t _; exact: (bobs_law_ge0 _ _ randE).
- exact: (bobs_law_sum p ss km randA randE dD).
- exact: (bobs_law_sum p ss km randA randE dD0).
exact: bobs_law_tv.
Qed.
End Near.
