(* Uniform losses, networks without losses, and the bound is attained. *)
From mathcomp Require Import all_ssreflect all_algebra complex.
From mathcomp Require Import ring zify.
From Verif Require Import Base SpecStates Combi SpecPerm PermMath SpecBS BsMath BsComb BsNorm BsSym SpecNet ProofNet4 ProofNet5 ProofGccB2 ProofBobs4 SpecLim ProofLim3 ProofLim5.
Set Implicit Arguments.
Unset Strict Implicit.
Unset Printing Implicit Defensive.
Import Order.TTheory GRing.Theory Num.Theory.
Local Open Scope ring_scope.

Section Uniform.
Variable R : rcfType.
Notation C := (ComplexField.complex_numFieldType R).

Lemma binomial_second n (eta : R) : \sum_(l < n.+1) binomial_weight n eta l * (l * l.-1)%:R = (n * n.-1)%:R * eta ^+ 2.
Proof.
case: n => [|[|n]]; first by rewrite big_ord1 mul0n mulr0 mul0r.
  by rewrite !big_ord_recl big_ord0 /= !mulr0 !addr0 muln0 mul0r.
rewrite big_ord_recl /= mul0n mulr0 add0r big_ord_recl /= muln0 mulr0 add0r.
transitivity ((n.+2 * n.+1)%:R * eta ^+ 2 * \sum_(l < n.+1) binomial_weight n eta l); last by rewrite binomial_weight_sum mulr1.
rewrite mulr_sumr; apply: eq_bigr => l _.
rewrite /bump /= !add1n /binomial_weight !subSS.
have -> : (n.+2 * n.+1)%:R = 'C(n.+2, l.+2)%:R * (l.+2 * l.+1)%:R / 'C(n, l)%:R :> R.
  apply: (canRL (mulfK _)); first by rewrite pnatr_eq0 -lt0n bin_gt0 -ltnS.
  rewrite -!natrM; congr _%:R; have := mul_bin_diag n.+2 l.+1; have := mul_bin_diag n.+1 l => /=.
  move: 'C(n, l) 'C(n.+1, l.+1) 'C(n.+2, l.+2) => a b c h1 h2.
  by rewrite -mulnA h1 mulnCA h2 mulnA mulnC [(l.+1 * _)%N]mulnC.
have b0 : ('C(n, l)%:R : R) != 0 by rewrite pnatr_eq0 -lt0n bin_gt0 -ltnS.
rewrite 2!exprS; move: 'C(n, l)%:R b0 => b b0; move: (eta ^+ l) ((1 - eta) ^+ _) => x y.
by move: 'C(_, _)%:R (_ * _)%:R => u v; field.
Qed.

Variables (m e n : nat) (M D : seq (seq C)) (eta : R).
Hypotheses (dD : dilation m e M D) (n0 : (0 < n)%N) (nm : (n <= m)%N) (eta01 : 0 <= eta <= 1).
Let s := one_each m n.

Lemma mix_ge0 (P : nat -> seq nat -> R) t : (forall l t, 0 <= P l t) ->
  0 <= \sum_(l < n.+1 | (sumn t <= l)%N) binomial_weight n eta l * P l t.
Proof. by move=> h; apply: sumr_ge0 => l _; rewrite mulr_ge0 // binomial_weight_ge0. Qed.

Lemma mix_sum (P : nat -> seq nat -> R) :
  \sum_(t <- lcomps m n) (\sum_(l < n.+1 | (sumn t <= l)%N) binomial_weight n eta l * P l t) =
  \sum_(l < n.+1) binomial_weight n eta l * \sum_(t <- lcomps m l) P l t.
Proof.
under eq_bigr => t _ do rewrite big_mkcond.
rewrite exchange_big; apply: eq_bigr => l _ /=.
have ln : (l <= n)%N by rewrite -ltnS.
by rewrite (lcomps_sum _ _ ln) mulr_sumr [RHS]big_mkcond.
Qed.

Lemma spread_uniform_ge0 t : 0 <= spread_uniform m e D n eta t.
Proof. by apply: mix_ge0 => l t'; exact: spread_ge0. Qed.

Lemma lost_uniformE t : lost_uniform e D s eta t = \sum_(l < n.+1 | (sumn t <= l)%N) binomial_weight n eta l * lost_prob e D s l t.
Proof. by rewrite /lost_uniform sumn_one_each. Qed.

Lemma lost_uniform_ge0 t : 0 <= lost_uniform e D s eta t.
Proof. by rewrite lost_uniformE; apply: mix_ge0 => l t'; exact: lost_ge0. Qed.

Lemma spread_uniform_norm : \sum_(t <- lcomps m n) spread_uniform m e D n eta t = 1.
Proof.
rewrite mix_sum -[RHS](binomial_weight_sum n eta); apply: eq_bigr => l _.
by rewrite (spread_norm dD) ?mulr1.
Qed.

Lemma lost_uniform_norm : \sum_(t <- lcomps m n) lost_uniform e D s eta t = 1.
Proof.
under eq_bigr => t _ do rewrite lost_uniformE.
rewrite mix_sum -[RHS](binomial_weight_sum n eta); apply: eq_bigr => l _.
by rewrite (lost_norm dD) ?mulr1 // -ltnS.
Qed.

Lemma spread_close_uniform :
  \sum_(t <- lcomps m n) `|spread_uniform m e D n eta t - lost_uniform e D s eta t| <= n.-1%:R * eta ^+ 2.
Proof.
apply: (@le_trans _ _ (\sum_(t <- lcomps m n) (\sum_(l < n.+1 | (sumn t <= l)%N) binomial_weight n eta l * `|spread_prob m e D n l t - lost_prob e D s l t|))).
  apply: ler_sum => t _; rewrite lost_uniformE -sumrB; apply: le_trans (ler_norm_sum _ _ _) _; apply: ler_sum => l _.
  by rewrite -mulrBr normrM ger0_norm ?binomial_weight_ge0.
rewrite (mix_sum (fun l t => `|spread_prob m e D n l t - lost_prob e D s l t|)).
apply: (@le_trans _ _ (\sum_(l < n.+1) binomial_weight n eta l * ((l * l.-1)%:R / n%:R))).
  apply: ler_sum => l _; apply: ler_wpmul2l; first exact: binomial_weight_ge0.
  have ln : (l <= n)%N by rewrite -ltnS.
  apply: le_trans (spread_close dD n0 nm ln) _.
  have := free_prob_bound R n0 nm ln; rewrite -(@ler_pmul2l _ 2%:R) ?ltr0n // => h; apply: le_trans h _.
  rewrite [(2 * n)%:R]natrM; have nR : (n%:R : R) != 0 by rewrite pnatr_eq0 -lt0n.
  by rewrite le_eqVlt; apply/orP; left; apply/eqP; move: (_ * _)%:R => x; field.
under eq_bigr => l _ do rewrite mulrA.
have nR : (n%:R : R) != 0 by rewrite pnatr_eq0 -lt0n.
by rewrite -mulr_suml binomial_second natrM -!mulrA mulrC -!mulrA [_^-1 * _]mulrC divff // mulr1.
Qed.
End Uniform.

Section Lossless.
Variable R : rcfType.
Notation C := (ComplexField.complex_numFieldType R).
Variables (m : nat) (U : seq (seq C)).

Lemma unitary_dilation : unitary m U -> dilation m 0 U U.
Proof. by move=> [_ o]; split=> // i i' il il'; rewrite addn0; exact: o. Qed.

Lemma traced_lossless T t : traced_prob 0 U T t = if (sumn T <= sumn t)%N then bs_prob U T t else 0.
Proof.
rewrite /traced_prob -subn_eq0; case: (sumn T - sumn t)%N => [|k] /=.
  by rewrite comps_zero big_seq1 cats0.
by rewrite big_seq big1 // => r; rewrite mem_comps => /andP[/eqP/size0nil -> /eqP].
Qed.

Lemma lost_lossless s l t : (sumn t <= l)%N -> lost_prob 0 U s l t = if sumn t == l then fixed_loss_prob U s t else 0.
Proof.
move=> tl; rewrite /lost_prob /fixed_loss_prob; case: eqP => [<-|ne].
  by congr (_ / _); apply: eq_bigr => T /eqP eT; rewrite traced_lossless eT leqnn.
rewrite big1 ?mul0r // => T /eqP eT; rewrite traced_lossless eT.
by case: leqP => [h|]; rewrite ?mulr0 //; case: ne; apply/eqP; rewrite eqn_leq tl h.
Qed.

Lemma lost_uniform_lossless s (eta : R) t : (sumn t <= sumn s)%N -> lost_uniform 0 U s eta t = uniform_loss_prob U s eta t.
Proof.
move=> ts; rewrite /lost_uniform /uniform_loss_prob.
have lt : (sumn t < (sumn s).+1)%N by [].
rewrite (bigD1 (Ordinal lt)) //= lost_lossless // eqxx big1 ?addr0 // => l /andP[tl ne].
rewrite lost_lossless //; case: eqP => [h|]; rewrite ?mulr0 //.
by case/eqP: ne; apply: val_inj.
Qed.
End Lossless.

Section Identity.
Variable R : rcfType.
Notation C := (ComplexField.complex_numFieldType R).
Variables (m n : nat) (I : seq (seq C)).
Hypotheses (sI : is_square m I) (eI : forall i j : nat, (i < m)%N -> (j < m)%N -> ent I i j = (i == j)%:R).
Hypotheses (n0 : (0 < n)%N) (nm : (n <= m)%N).
Let s := one_each m n.

Lemma identity_unitary : unitary m I.
Proof.
split=> // i i' il il'; rewrite /ortho_cols (bigD1 (Ordinal il)) //= big1 ?addr0 => [|j ne].
  by rewrite !eI // eqxx rmorph1 mul1r.
rewrite !eI // (_ : (j == i :> nat) = false) ?rmorph0 ?mul0r //.
by apply/eqP => h; case/eqP: ne; apply: val_inj.
Qed.

Lemma PerO_identity x a : size a = m -> all (fun p => p < m)%N x ->
  PerO (ent I) x a = \prod_(i < m) (nth 0%N a i ^_ count_mem (i : nat) x)%:R.
Proof.
elim: x a => [|p x IH] a sa /=; first by rewrite big1 // => i _; rewrite ffactn0.
move=> /andP[pm xm]; rewrite sa (bigD1 (Ordinal pm)) //= big1 ?addr0 => [|i ne]; last first.
  rewrite eI // (_ : (p == i :> nat) = false) ?mulr0 ?mul0r //.
  by apply/eqP => h; case/eqP: ne; apply: val_inj.
rewrite eI // eqxx mulr1; case: (posnP (nth 0%N a p)) => [e0|p0].
  by rewrite e0 mul0r [RHS](bigD1 (Ordinal pm)) //= eqxx add1n e0 ffact0n mul0r.
rewrite IH ?size_decr ?sa // (bigD1 (Ordinal pm)) //= [RHS](bigD1 (Ordinal pm)) //= mulrA eqxx nth_decr eqxx.
congr (_ * _); first by rewrite -natrM add1n ffactnS.
apply: eq_bigr => i ne; have np : (val i == p) = false by apply/eqP => h; case/eqP: ne; apply: val_inj.
by rewrite nth_decr np eq_sym np.
Qed.

Lemma bs_prob_identity a t : size a = m -> size t = m -> sumn a = sumn t -> bs_prob I a t = (a == t)%:R.
Proof.
move=> sa st e; rewrite /bs_prob bs_permanent_PerO // PerO_identity //; last first.
  by apply/allP => p /particle_modes_lt; rewrite st.
have E : \prod_(i < m) (nth 0%N a i ^_ count_mem (i : nat) (particle_modes t))%:R = ((a == t) * factprod a)%:R :> C.
  under eq_bigr => i _ do rewrite count_particle_modes.
  case: eqP => [<-|ne].
    by rewrite mul1n -natr_prod; congr _%:R; rewrite /factprod [RHS](big_nth 0%N) big_mkord sa; apply: eq_bigr => i _; rewrite ffactnn.
  rewrite mul0n; have [/forallP h|/forallPn[ i]] := boolP [forall i : 'I_m, nth 0%N t i <= nth 0%N a i]%N.
    case: ne; apply: (@eq_from_nth _ 0%N); rewrite ?sa ?st // => i il; apply/eqP; rewrite eqn_leq (h (Ordinal il)) andbT.
    have S u : size u = m -> sumn u = (nth 0%N u i + \sum_(j < m | j != Ordinal il) nth 0%N u j)%N.
      by move=> su; rewrite sumnE (big_nth 0%N) big_mkord su (bigD1 (Ordinal il)).
    move: e; rewrite !S //; have : (\sum_(j < m | j != Ordinal il) nth 0 t j <= \sum_(j < m | j != Ordinal il) nth 0 a j)%N.
      by apply: leq_sum => j _; exact: h.
    lia.
  by rewrite -ltnNge => lt; rewrite (bigD1 i) //= ffact_small ?mul0r.
rewrite E nsq_nat; case: eqP => [->|]; last by rewrite mul0n expr0n mul0r.
by rewrite mul1n natrM -expr2 divff // expf_neq0 // pnatr_eq0 -lt0n factprod_gt0.
Qed.

Lemma traced_identity l a t : size a = m -> sumn a = l -> size t = m -> (sumn t <= l)%N -> traced_prob 0 I a t = (a == t)%:R.
Proof.
move=> sa ea st tl; rewrite traced_lossless ea; case: leqP => h.
  by rewrite bs_prob_identity // ea; apply/eqP; rewrite eqn_leq h tl.
by case: eqP => // eat; rewrite -eat ea ltnn in h.
Qed.

Lemma sum_identity l a (A : pred (seq nat)) : size a = m -> sumn a = l -> \sum_(t <- lcomps m l | A t) traced_prob 0 I a t = (A a)%:R.
Proof.
move=> sa ea; rewrite big_mkcond (bigD1_seq a) ?lcomps_uniq ?mem_lcomps ?sa ?ea ?eqxx ?leqnn //= big1_seq ?addr0.
  by rewrite (traced_identity sa ea) ?ea // eqxx; case: (A a).
move=> t /andP[ne]; rewrite mem_lcomps => /andP[/eqP st tl]; case: (A t) => //.
by rewrite (traced_identity sa ea) // eq_sym (negPf ne).
Qed.

Lemma cf_pad a k : cf (a ++ nseq k 0%N) = cf a.
Proof. by rewrite /cf all_cat (_ : all _ (nseq _ _)) ?andbT //; apply/allP => x /nseqP[-> _]. Qed.

Lemma spread_attained l : (l <= n)%N ->
  \sum_(t <- lcomps m l) `|spread_prob m 0 I n l t - lost_prob 0 I s l t| = 2%:R * (1 - free_prob R n l).
Proof.
move=> ln; have dI := unitary_dilation identity_unitary.
apply/eqP; rewrite eq_le (spread_close dI) //=.
have pA : \sum_(t <- lcomps m l | cf t) spread_prob m 0 I n l t = free_prob R n l.
  rewrite exchange_big -(free_weight R nm ln) [RHS]big_mkcond; apply: eq_big_seq => a; rewrite mem_comps => /andP[/eqP sa /eqP ea] /=.
  rewrite -mulr_sumr sum_identity ?size_cat ?sa ?size_nseq ?subnKC ?sumn_cat ?sumn_nseq ?mul0n ?addn0 //.
  by rewrite cf_pad; case: ifP => _; rewrite ?mulr1 ?mulr0.
have qA : \sum_(t <- lcomps m l | cf t) lost_prob 0 I s l t = 1.
  rewrite -mulr_suml exchange_big /=.
  have -> : \sum_(T <- subs s | sumn T == l) \sum_(t <- lcomps m l | cf t) (ways s T)%:R * traced_prob 0 I T t = 'C(sumn s, l)%:R.
    rewrite -vandermonde big_seq_cond [RHS]big_seq_cond; apply: eq_bigr => T /andP[]; rewrite mem_subs => sT eT.
    have := subs_one_each nm l => /perm_mem/(_ T); rewrite mem_filter mem_subs sT eT /= => /esym/mapP[a].
    rewrite mem_filter mem_comps => /and3P[c /eqP sa /eqP ea] ->.
    rewrite -mulr_sumr sum_identity ?size_cat ?sa ?size_nseq ?subnKC ?sumn_cat ?sumn_nseq ?mul0n ?addn0 //.
    by rewrite cf_pad c mulr1.
  by rewrite divff // pnatr_eq0 -lt0n bin_gt0 sumn_one_each.
have pB : \sum_(t <- lcomps m l | ~~ cf t) spread_prob m 0 I n l t = 1 - free_prob R n l.
  by have := spread_norm dI n0 nm l; rewrite (bigID cf) /= pA => <-; rewrite addrC addKr.
have qB : \sum_(t <- lcomps m l | ~~ cf t) lost_prob 0 I s l t = 0.
  by have := lost_norm dI nm ln; rewrite (bigID cf) /= qA => /eqP; rewrite -subr_eq0 addrAC subrr add0r => /eqP.
rewrite (bigID cf) /= mulrDl mul1r; apply: ler_add.
  have -> : 1 - free_prob R n l = \sum_(t <- lcomps m l | cf t) lost_prob 0 I s l t - \sum_(t <- lcomps m l | cf t) spread_prob m 0 I n l t by rewrite pA qA.
  rewrite -sumrB; apply: ler_sum => t _; by rewrite -normrN opprB ler_norm.
have -> : 1 - free_prob R n l = \sum_(t <- lcomps m l | ~~ cf t) spread_prob m 0 I n l t - \sum_(t <- lcomps m l | ~~ cf t) lost_prob 0 I s l t by rewrite pB qB subr0.
rewrite -sumrB; apply: ler_sum => t _; exact: ler_norm.
Qed.
End Identity.
