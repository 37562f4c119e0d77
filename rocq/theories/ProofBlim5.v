(* The approximate sampler on the identity network with equal losses. *)
From mathcomp Require Import all_ssreflect all_algebra complex.
From mathcomp Require Import ring zify.
From Verif Require Import Base SpecStates Combi SpecPerm PermMath SpecBS BsMath BsComb BsNorm SpecNet ProofGccB2 ProofNet4 ProofNet5 ProofThin ProofBobs2 ProofBobs4 SpecLim ProofLim3 ProofLim5 ProofLim6 SpecBlim ProofBlim4.
Set Implicit Arguments.
Unset Strict Implicit.
Unset Printing Implicit Defensive.
Import Order.TTheory GRing.Theory Num.Theory.
Local Open Scope ring_scope.

Section Identity.
Variable R : rcfType.
Notation C := (ComplexField.complex_numFieldType R).
Notation mat := (seq (seq C)).
Variables (m e : nat) (M D : mat) (eta : R).
Hypotheses (dD : dilation m e M D) (e01 : 0 <= eta <= 1) (m0 : (0 < m)%N).
Hypothesis hM : forall i j : nat, (i < m)%N -> (j < m)%N -> ent M i j = (i == j)%:R * (Num.sqrt eta)%:C%C.

Let eta0 : 0 <= eta. Proof. by case/andP: e01. Qed.
Let eta1 : 0 <= 1 - eta. Proof. by case/andP: e01 => _ h; rewrite subr_ge0. Qed.

Definition idm : mat := [seq [seq (i == j)%:R | j <- iota 0 m] | i <- iota 0 m].
Lemma idm_square : is_square m idm.
Proof.
rewrite /is_square size_map size_iota eqxx /=; apply/allP => r /mapP[i _ ->]; by rewrite size_map size_iota.
Qed.
Lemma idm_ent (i j : nat) : (i < m)%N -> (j < m)%N -> ent idm i j = (i == j)%:R.
Proof. by move=> il jl; rewrite /ent (nth_map 0%N) ?size_iota // (nth_map 0%N) ?size_iota // !nth_iota. Qed.

(* all the particles are left *)
Lemma scaled_all s t : size s = m -> size t = m -> sumn t = sumn s -> traced_prob e D s t = eta ^+ sumn s * (s == t)%:R.
Proof.
move=> ss st et; have dI := unitary_dilation (identity_unitary idm_square idm_ent).
have xc : Num.sqrt eta ^+ 2 + Num.sqrt (1 - eta) ^+ 2 = 1 by rewrite !sqr_sqrtr // addrCA subrr addr0.
have hM' i j : (i < m)%N -> (j < m)%N -> ent M i j = (Num.sqrt eta)%:C%C * ent idm i j.
  by move=> il jl; rewrite hM // idm_ent // mulrC.
rewrite (traced_thin dI dD xc hM') ?et // !sqr_sqrtr // big_mkcond (bigD1_seq s) ?subs_uniq ?mem_subs ?substate_refl //=.
rewrite leqnn subnn expr0 ways_self mul1r mulr1 (traced_identity idm_square idm_ent m0 (leqnn m) ss erefl st) ?et //.
rewrite big1_seq ?addr0 // => K /andP[ne]; rewrite mem_subs => sK; case: ifP => // le.
by case/eqP: ne; apply: (substate_sumn_eq sK); apply/eqP; rewrite eqn_leq le substate_sumn.
Qed.

Variables (k : nat) (a r : seq nat).
Hypotheses (k0 : (0 < k)%N) (km : (k <= m)%N) (sa : size a = k) (sr : size r = (m - k)%N).
Let p := sumn a.

Lemma scaled_rest b : b \in comps k p -> spread_rest e D k p r (b ++ r) = eta ^+ (p + sumn r) * spread_weight R k p b.
Proof.
rewrite mem_comps => /andP[/eqP sb /eqP eb].
rewrite /spread_rest (bigD1_seq b) ?comps_uniq ?mem_comps /is_state ?sb ?eb ?eqxx //= scaled_all ?size_cat ?sb ?sr ?subnKC //.
rewrite eqxx mulr1 sumn_cat eb big1_seq ?addr0 => [|c /andP[ne]]; first by rewrite mulrC.
rewrite mem_comps => /andP[/eqP sc /eqP ec]; rewrite scaled_all ?size_cat ?sb ?sc ?sr ?subnKC ?sumn_cat ?eb ?ec //.
by rewrite eqseq_cat ?sb ?sc // (negPf ne) mulr0 mulr0.
Qed.

Lemma scaled_distance :
  2%:R * eta ^+ (p + sumn r) * (1 - spread_weight R k p a) <=
  \sum_(t <- lcomps m (p + sumn r)) `|spread_rest e D k p r t - traced_prob e D (a ++ r) t|.
Proof.
have aC : a \in comps k p by rewrite mem_comps /is_state sa !eqxx.
apply: (@le_trans _ _ (\sum_(t <- [seq b ++ r | b <- comps k p]) `|spread_rest e D k p r t - traced_prob e D (a ++ r) t|)); last first.
  rewrite [X in _ <= X](bigID (mem [seq b ++ r | b <- comps k p])) /= [X in _ <= X + _](_ : _ = \sum_(t <- [seq b ++ r | b <- comps k p]) `|spread_rest e D k p r t - traced_prob e D (a ++ r) t|).
    by rewrite ler_addl; apply: sumr_ge0 => t _; exact: normr_ge0.
  rewrite -big_filter; apply: perm_big; apply: uniq_perm; rewrite ?filter_uniq ?lcomps_uniq //.
    rewrite map_inj_in_uniq ?comps_uniq // => b b'; rewrite !mem_comps => /andP[/eqP sb _] /andP[/eqP sb' _] /eqP.
    by rewrite eqseq_cat ?sb ?sb' // => /andP[/eqP ->].
  move=> t; rewrite mem_filter /= andb_idr // => /mapP[b]; rewrite mem_comps => /andP[/eqP sb /eqP eb] ->.
  by rewrite mem_lcomps size_cat sb sr subnKC // eqxx sumn_cat eb leqnn.
rewrite big_map (bigD1_seq a) ?comps_uniq //=.
have E b : b \in comps k p -> spread_rest e D k p r (b ++ r) - traced_prob e D (a ++ r) (b ++ r) = eta ^+ (p + sumn r) * (spread_weight R k p b - (a == b)%:R).
  move=> bC; rewrite scaled_rest //; move: bC; rewrite mem_comps => /andP[/eqP sb /eqP eb].
  rewrite scaled_all ?size_cat ?sa ?sb ?sr ?subnKC // ?sumn_cat ?eb //.
  by rewrite eqseq_cat ?sa ?sb // eqxx andbT mulrBr.
have sum1 := spread_weight_sum R p k0; rewrite (bigD1_seq a) ?comps_uniq //= in sum1.
have w1 : spread_weight R k p a <= 1 by rewrite -sum1 ler_addl; apply: sumr_ge0 => b _; exact: spread_weight_ge0.
have aa : (a == a)%:R = 1 :> R by rewrite eqxx.
rewrite E // aa normrM ger0_norm ?exprn_ge0 // distrC ger0_norm ?subr_ge0 //.
rewrite big_seq_cond (eq_bigr (fun b => eta ^+ (p + sumn r) * spread_weight R k p b)) => [|b /andP[bC ne]]; last first.
  by rewrite E // eq_sym (negPf ne) subr0 ger0_norm // mulr_ge0 ?exprn_ge0 ?spread_weight_ge0.
rewrite -big_seq_cond -mulr_sumr.
have -> : \sum_(b <- comps k p | b != a) spread_weight R k p b = 1 - spread_weight R k p a by rewrite -sum1 addrC addKr.
by rewrite le_eqVlt; apply/orP; left; apply/eqP; move: (eta ^+ _) (spread_weight _ _ _ _) => x y; rewrite ?mulr1n; ring.
Qed.
End Identity.
