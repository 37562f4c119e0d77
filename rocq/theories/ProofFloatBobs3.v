(* The strategy for different losses in rounded arithmetic: the samples. *)
From mathcomp Require Import all_ssreflect all_algebra complex.
From mathcomp Require Import ring zify.
From Verif Require Import Base SpecStates Combi SpecPerm PermMath SpecBS BsMath BsComb BsNorm SpecProb ProbMath ModelStates ProofStates1 ModelPerm ModelDist ModelGcc ModelGccB ProofGcc3 ProofSel SpecGcc LemGcc ModelNet SpecNet LemNet ProofGccB2
  ProofNet1 ProofNet2 ProofNet3 ProofNet4 ProofNet5 ProofNet7 ProofThin ModelBobs SpecBobs ProofBobs1 ProofBobs2 ProofBobs3 ProofBobs4 ProofBobs5 ProofPert3.
From Verif Require ProofLim5.
From Verif Require Import ModelFloat SpecFloat ModelFloatGcc ModelFloatGccB SpecFloatSub SpecFloatGcc SpecFloatGccB ProofFloat ProofFloat4 ProofFloatSel ProofFloatGcc2 ProofFloatDist2 ProofFloatGccB2 ProofFloatGccB3 ModelFloatNet SpecFloatNet
  ProofFloatNet1 ProofFloatNet2 ProofFloatNet3 ProofFloatNet4 ProofFloatNet5
  SpecFloatFixed ProofFloatFixed1 ProofFloatFixed2 ProofFloatFixed3 ModelFloatLState SpecFloatLState ProofFloatLState1 ProofFloatLState2 ProofFloatLState4 ModelFloatBobs SpecFloatBobs ProofFloatBobs1 ProofFloatBobs2.
Set Implicit Arguments.
Unset Strict Implicit.
Unset Printing Implicit Defensive.
Import Order.TTheory GRing.Theory Num.Theory.
Local Open Scope ring_scope.
Local Open Scope py_scope.

(* a draw with finitely many results, and an error for each of them *)
Lemma napx_drawE (R : rcfType) (Y : Type) (f : Y -> R) (T : eqType) (p : rprog R (res T)) (S : seq T) (W : T -> R)
    (g : T -> rprog R (res Y)) (E e : T -> R) :
  always (fun r => exists2 d, r = Ok d & d \in S) p -> (forall h, has_exp (on_ok h) p (\sum_(d <- S) W d * h d)) ->
  (forall d, d \in S -> napx (on_ok f) (g d) (E d) (e d)) ->
  napx (on_ok f) (rpbind p g) (\sum_(d <- S) W d * E d) (\sum_(d <- S) W d * e d).
Proof.
move=> HA HE H; case ES: S => [|d0 S'].
  have hf : always (fun=> False) p by apply: always_impl HA => r [d _]; rewrite ES.
  exists 0; rewrite !big_nil subrr normr0 lexx ler01; split=> //.
  have := HE (fun=> 0); rewrite ES big_nil => h0; apply: has_exp_rbind h0 _.
  by apply: always_impl hf.
rewrite -ES.
have K i : (i < size S)%N -> exists v, [/\ has_exp (on_ok f) (g (nth d0 S i)) v, 0 <= v <= 1 & `|v - E (nth d0 S i)| <= e (nth d0 S i)].
  by move=> il; apply: H; rewrite mem_nth.
have [V HV] := choose_seq 0 K.
pose v d := if d \in S then V (index d S) else 0.
have Hv d : d \in S -> [/\ has_exp (on_ok f) (g d) (v d), 0 <= v d <= 1 & `|v d - E d| <= e d].
  by move=> dS; have := HV (index d S); rewrite index_mem nth_index // /v dS => /(_ isT).
exists (\sum_(d <- S) W d * v d); split.
- by apply: has_exp_rbind (HE v) _; apply: always_impl HA => _ [d -> dS]; have [] := Hv d dS.
- apply: (exp_01 (HE v)); apply: on_ok01 => d; rewrite /v; case: ifP => dS; last by rewrite lexx ler01.
  by have [_] := Hv d dS; rewrite /v dS.
rewrite -sumrB.
have -> : \sum_(d <- S) (W d * v d - W d * E d) = \sum_(d <- S) W d * (v d - E d).
  by apply: eq_bigr => d _; rewrite mulrBr.
rewrite ler_norml -sumrN; apply/andP; split.
  have -> : \sum_(d <- S) - (W d * e d) = \sum_(d <- S) W d * (- e d) by apply: eq_bigr => d _; rewrite mulrN.
  apply: (has_exp_le (HE _) (HE _)); apply: always_impl HA => _ [d -> dS] /=.
  by have [_ _] := Hv d dS; rewrite ler_norml => /andP[].
apply: (has_exp_le (HE _) (HE _)); apply: always_impl HA => _ [d -> dS] /=.
by have [_ _] := Hv d dS; rewrite ler_norml => /andP[].
Qed.

Lemma tiny_u (R : rcfType) (u : R) m : 0 <= u -> (9 * (m + m) + 4)%:R * u <= (2%:R ^+ 27)^-1 -> u <= (10%:R ^+ 8)^-1.
Proof.
move=> u0 h; have h2 : 2%:R * u <= (2%:R ^+ 27)^-1.
  by apply: le_trans h; rewrite ler_wpmul2r // ler_nat; apply: leq_trans (leq_addl _ _).
have p : 0 < 2%:R ^+ 27 :> R by rewrite exprn_gt0 // ltr0n.
have le : 10%:R ^+ 8 <= 2%:R ^+ 28 :> R.
  have -> : 10%:R ^+ 8 = (10%:R ^+ 2) ^+ 4 :> R by rewrite -exprM.
  have -> : 2%:R ^+ 28 = (2%:R ^+ 7) ^+ 4 :> R by rewrite -exprM.
  by apply: ler_expn2r; rewrite ?nnegrE ?exprn_ge0 ?ler0n // -!natrX ler_nat.
have t0 : 0 < 10%:R ^+ 8 :> R by rewrite exprn_gt0 // ltr0n.
rewrite -div1r ler_pdivl_mulr //; apply: le_trans (ler_wpmul2l u0 le) _.
rewrite exprS mulrA [u * _]mulrC -ler_pdivl_mulr // div1r //.
Qed.

Lemma fl_bobs_startE (R : rcfType) (B : arith R) s (x : bobs R) : (0 < size s)%N -> (bo_modes x <= size s)%N ->
  exists x', [/\ fl_bobs_start B s x = Ok x',
  bo_modes x' = bo_modes x /\ bo_threads x' = bo_threads x,
  [/\ bo_losses x' = bo_losses x, bo_matrix x' = bo_matrix x & bo_calc x' = bo_calc x],
  bo_state x' = nseq (bo_modes x) 0%N ++ drop (bo_modes x) s /\
  bo_particles x' = (bo_particles x + sumn (take (bo_modes x) s))%N
  & exists2 mx, (maxn (\max_(y <- s) y) (bo_particles x') <= mx)%N & bo_weights x' = fl_own_weights B (bo_losses x) mx].
Proof.
move=> s0 ks; rewrite /fl_bobs_start.
have H k : (k <= size s)%N -> rfoldl (fun st i =>
      let! n := py_get s (Posz i) in
      let! s' := py_set st.2 (Posz i) 0%N in
      Ok ((st.1 + n)%N, s')) (bo_particles x, s) (iota 0 k) =
  Ok ((bo_particles x + sumn (take k s))%N, nseq k 0%N ++ drop k s).
  elim: k => [|k IH] kl; first by rewrite /= take0 addn0 drop0.
  rewrite -addn1 iotaD rfoldl_cat IH ?(ltnW kl) // [rbind _ _]/= add0n /= (py_get_nth 0%N) // [rbind _ _]/=.
  rewrite (drop_nth 0%N kl) (py_set_cat _ _ _ (i := Posz k)) ?size_nseq // [rbind _ _]/=.
  rewrite addn1 (take_nth 0%N kl) -cats1 sumn_cat /= addn0 addnA; congr (Ok (_, _)).
  by elim: (k) (drop _ _) => //= n IHn L; rewrite IHn.
have [mx emx lmx] := py_max_le s0.
rewrite H // emx [rbind _ _]/=; eexists; split; [reflexivity|by []|by []|by []|].
exists (maxn mx (bo_particles x + sumn (take (bo_modes x) s))) => //=.
by rewrite geq_max leq_maxr andbT (leq_trans lmx) // leq_maxl.
Qed.

Section Law.
Variable R : rcfType.
Notation C := (ComplexField.complex_numFieldType R).
Notation mat := (seq (seq C)).
Variables (cis : R -> C) (m k p : nat) (s : seq nat) (M0 M' : mat) (l : R).
Hypotheses (ss : size s = m) (km : (k <= m)%N) (l01 : 0 <= l <= 1).
Variables (rand : nat -> rprog R (res (seq R))) (S : seq (seq R)) (W : seq R -> R).
Hypotheses (randA : always (fun r => exists2 d, r = Ok d & d \in S) (rand k))
  (randE : forall f, has_exp (on_ok f) (rand k) (\sum_(d <- S) W d * f d)).
Variables (e : seq R -> nat) (D : seq R -> mat).
Hypotheses (hM' : forall i j, (i < m)%N -> (j < m)%N -> ent M' i j = (Num.sqrt (1 - l))%:C%C * ent M0 i j)
  (dD : forall d, d \in S -> dilation m (e d) (approx_net cis m M' k d) (D d)).
Variable EN : seq R -> mat.
Hypothesis dilN : forall d, dilation m m (approx_net cis m M0 k d) (EN d).

Notation bobs_law := (SpecFloatBobs.bobs_law k p s S W e D).

Lemma bobs_value (f : seq nat -> R) :
  \sum_(s' <- approx_inputs k p s) (size (approx_inputs k p s))%:R^-1 *
    (\sum_(K <- subs s') thin_weight l s' K * \sum_(d <- S) W d * \sum_(t <- lcomps m (sumn K)) traced_prob m (EN d) K t * f t) =
  \sum_(t <- lcomps m (approx_total k p s)) bobs_law t * f t.
Proof.
transitivity ((\sum_(s' <- approx_inputs k p s) \sum_(t <- lcomps m (approx_total k p s))
  (\sum_(d <- S) W d * traced_prob (e d) (D d) s' t) * f t) / (size (approx_inputs k p s))%:R); last first.
  rewrite exchange_big [LHS]mulr_suml; apply: eq_bigr => t _; rewrite -[X in X / _]mulr_suml mulrAC; congr (_ * _).
  by rewrite exchange_big [LHS]mulr_suml; apply: eq_bigr => d _; rewrite -mulr_sumr /bobs_prob mulrA.
rewrite mulr_suml; apply: eq_big_seq => s' si; rewrite [_^-1 * _]mulrC; congr (_ * _).
transitivity (\sum_(d <- S) W d * \sum_(K <- subs s') thin_weight l s' K *
   \sum_(t <- lcomps m (sumn K)) traced_prob m (EN d) K t * f t).
  under eq_bigr => K _ do rewrite mulr_sumr.
  rewrite exchange_big /=; apply: eq_bigr => d _; rewrite mulr_sumr; apply: eq_bigr => K _.
  by rewrite mulrCA.
under eq_bigr => d _ do rewrite (thin_sum _ _ _ (fun=> f)) mulr_sumr.
rewrite exchange_big /= (approx_inputs_sumn si); apply: eq_big_seq => t; rewrite mem_lcomps => /andP[/eqP st le].
rewrite mulr_suml; apply: eq_big_seq => d dS; rewrite -mulrA; congr (_ * _).
have z' := approx_inputs_size ss km si.
have /andP[q0 q1] := l01; have p1 : 0 <= 1 - l by rewrite subr_ge0.
rewrite (traced_thin (x := Num.sqrt (1 - l)) (c := Num.sqrt l) (dilN d) (dD dS)) //.
- rewrite mulr_suml; apply: eq_bigr => K _; congr (_ * _ * _).
  by rewrite !sqr_sqrtr.
- by rewrite !sqr_sqrtr // subrK.
- exact: approx_scale hM'.
by rewrite (approx_inputs_sumn si).
Qed.

Lemma rand_sum : \sum_(d <- S) W d = 1.
Proof.
have h1 := randE (fun=> 1 : R).
have h2 : has_exp (on_ok (fun=> 1 : R)) (rand k) 1.
  apply: has_exp_always (has_exp_const 1 h1) _.
  by apply: always_impl randA => _ [d -> _].
by rewrite -(has_exp_fun h1 h2); apply: eq_bigr => q _; rewrite mulr1.
Qed.

Lemma inputs_pos : (0 < size (approx_inputs k p s))%N.
Proof. by rewrite /approx_inputs; case: eqP => // /eqP; rewrite size_map size_iota lt0n. Qed.

Lemma bobs_law_ge0 t : 0 <= bobs_law t.
Proof.
have := randE (fun=> 0); rewrite big1 => [h0|d _]; last by rewrite mulr0.
apply: (has_exp_le h0 (randE _)); apply: always_true => -[d|er] //=.
by rewrite divr_ge0 ?ler0n // sumr_ge0 // => s' _; exact: traced_ge0.
Qed.

Lemma bobs_law_sum : \sum_(t <- lcomps m (approx_total k p s)) bobs_law t = 1.
Proof.
rewrite exchange_big /= -[RHS]rand_sum; apply: eq_big_seq => d dS; rewrite -mulr_sumr -[RHS]mulr1; congr (_ * _).
rewrite /bobs_prob -mulr_suml exchange_big /=.
rewrite (eq_big_seq (fun=> 1)) => [|s' si]; last first.
  rewrite -(approx_inputs_sumn si); apply: (ProofLim5.traced_norm (dD dS)); exact: (approx_inputs_size ss km si).
by rewrite big_const_seq count_predT iter_addr addr0 divff // pnatr_eq0 -lt0n inputs_pos.
Qed.

Lemma bobs_iid01 j f : (forall L, 0 <= f L <= 1) -> 0 <= iid_exp (lcomps m (approx_total k p s)) bobs_law j f <= 1.
Proof. by move=> f01; apply: iid_exp01 => //; [move=> t _; exact: bobs_law_ge0|exact: bobs_law_sum]. Qed.
End Law.
