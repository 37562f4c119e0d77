(* How far the laws of the strategies with independent particles are from the exact ones. *)
From mathcomp Require Import all_ssreflect all_algebra complex.
From mathcomp Require Import ring zify.
From Verif Require Import Base SpecStates Combi SpecPerm PermMath SpecBS BsMath BsComb BsNorm SpecNet ProofNet4 ProofNet5 ProofGccB2 ProofBobs4 SpecLim ProofLim3.
Set Implicit Arguments.
Unset Strict Implicit.
Unset Printing Implicit Defensive.
Import Order.TTheory GRing.Theory Num.Theory.
Local Open Scope ring_scope.

Section Norm.
Variable R : rcfType.
Notation C := (ComplexField.complex_numFieldType R).
Variables (m e : nat) (M D : seq (seq C)).
Hypothesis dD : dilation m e M D.

Lemma traced_ge0 s t : 0 <= traced_prob e D s t.
Proof. by apply: sumr_ge0 => r _; exact: bs_prob_ge0. Qed.

Lemma traced_norm s : size s = m -> \sum_(t <- lcomps m (sumn s)) traced_prob e D s t = 1.
Proof.
move=> ss; pose D' : seq (seq C) := [seq [seq ent D i j | j <- iota 0 (m + e)] | i <- iota 0 (m + e)].
have eD i j : (i < m + e)%N -> (j < m + e)%N -> ent D' i j = ent D i j.
  by move=> il jl; rewrite {1}/ent (nth_map 0%N) ?size_iota // (nth_map 0%N) ?size_iota // !nth_iota.
have sq : is_square (m + e) D'.
  rewrite /is_square size_map size_iota eqxx /=; apply/allP => r /mapP[i _ ->]; by rewrite size_map size_iota.
have on : unitary_on (m + e) D' (s ++ nseq e 0%N).
  split=> // i i' p p'.
  have lt j : (0 < nth 0%N (s ++ nseq e 0%N) j)%N -> (j < m)%N.
    by rewrite nth_cat ss; case: (ltnP j m) => // _; rewrite nth_nseq if_same.
  have il := lt _ p; have il' := lt _ p'; case: dD => _ /(_ i i' il il').
  rewrite /ortho_cols => <-; apply: eq_bigr => j _.
  by rewrite !eD //; apply: ltn_addr.
have := bs_prob_norm on; rewrite big_comps_split sumn_cat sumn_nseq mul0n addn0 => <-.
apply: eq_big_seq => t; rewrite mem_lcomps => /andP[/eqP st le]; apply: eq_big_seq => r; rewrite mem_comps => /andP[/eqP sr /eqP er].
have eq : sumn s = sumn (t ++ r) by rewrite sumn_cat er subnKC.
rewrite bs_prob_pad // /bs_prob; congr (nsq _ / _); apply: bs_permanent_entries => // a i al il.
by rewrite eD // ?(leq_trans il) ?ss ?leq_addr //; move: al; rewrite size_cat st sr.
Qed.

Lemma spread_weight_ge0 n l a : 0 <= spread_weight R n l a.
Proof. by rewrite !mulr_ge0 ?invr_ge0 ?exprn_ge0 ?ler0n. Qed.

Lemma spread_weight_sum n l : (0 < n)%N -> \sum_(a <- comps n l) spread_weight R n l a = 1.
Proof.
move=> n0; rewrite -mulr_suml.
have := @multinomial_theorem R (fun=> 1) n l; rewrite sumr_const card_ord => E.
have -> : \sum_(a <- comps n l) l`!%:R / (factprod a)%:R = n%:R ^+ l :> R.
  rewrite E; apply: eq_bigr => a _; rewrite /mono big1 ?mulr1 // => i _; exact: expr1n.
by rewrite divff // expf_neq0 // pnatr_eq0 -lt0n.
Qed.

Variable n : nat.
Hypotheses (n0 : (0 < n)%N) (nm : (n <= m)%N).
Let s := one_each m n.

Lemma size_one_each : size s = m. Proof. by rewrite size_cat !size_nseq subnKC. Qed.
Lemma sumn_one_each : sumn s = n. Proof. by rewrite sumn_cat !sumn_nseq mul1n mul0n addn0. Qed.

Definition cf (a : seq nat) : bool := all (fun x => x <= 1)%N a.

(* the probability that no two of the l particles are in the same mode *)
Definition free_prob l : R := (n ^_ l)%:R / n%:R ^+ l.

Lemma subs_one_each l : perm_eq [seq T <- subs s | sumn T == l] [seq a ++ nseq (m - n) 0%N | a <- comps n l & cf a].
Proof.
apply: uniq_perm; first by rewrite filter_uniq ?subs_uniq.
  rewrite map_inj_uniq ?filter_uniq ?comps_uniq // => a b eab.
  have es : size a = size b by have := congr1 size eab; rewrite !size_cat => /addIn.
  by have := eqseq_cat (nseq (m - n) 0%N) (nseq (m - n) 0%N) es; rewrite eab !eqxx andbT => /esym/eqP.
move=> T; rewrite mem_filter mem_subs; apply/andP/mapP.
  move=> [/eqP eT /substateP[sT h]]; rewrite size_one_each in sT.
  have z i : (n <= i)%N -> nth 0%N T i = 0%N.
    move=> il; apply/eqP; rewrite -leqn0; apply: leq_trans (h i) _.
    by rewrite nth_cat size_nseq ltnNge il /= nth_nseq if_same.
  have eT' : T = take n T ++ nseq (m - n) 0%N.
    apply: (@eq_from_nth _ 0%N); first by rewrite size_cat size_takel ?sT // size_nseq subnKC.
    move=> i il; rewrite nth_cat size_takel ?sT //; case: ltnP => ni; first by rewrite nth_take.
    by rewrite z // nth_nseq if_same.
  exists (take n T) => //; rewrite mem_filter mem_comps /is_state size_takel ?sT // eqxx /=.
  have -> : sumn (take n T) = l by rewrite -eT [in RHS]eT' sumn_cat sumn_nseq mul0n addn0.
  rewrite eqxx andbT.
  apply/(all_nthP 0%N) => i; rewrite size_takel ?sT // => il; rewrite nth_take //.
  by apply: leq_trans (h i) _; rewrite nth_cat size_nseq il nth_nseq il.
move=> [a]; rewrite mem_filter mem_comps => /and3P[c /eqP sa /eqP ea] ->.
split; first by rewrite sumn_cat sumn_nseq mul0n addn0 ea.
apply/substateP; split; first by rewrite size_one_each size_cat sa size_nseq subnKC.
move=> i; rewrite !nth_cat sa size_nseq; case: ltnP => il; last by rewrite nth_nseq if_same.
by rewrite nth_nseq il; apply: (allP c); rewrite mem_nth // sa.
Qed.

Lemma ways_one_each a : size a = n -> cf a -> ways s (a ++ nseq (m - n) 0%N) = 1%N.
Proof.
move=> sa c; rewrite /ways big1 // => i _; rewrite !nth_cat sa size_nseq; case: ltnP => il.
  have := allP c _ (mem_nth 0%N (s := a) (n := i) _); rewrite sa => /(_ il); rewrite nth_nseq il.
  by case: (nth _ _ _) => [|[|]].
by rewrite !nth_nseq !if_same bin0.
Qed.

Lemma cf_factprod a : cf a -> factprod a = 1%N.
Proof. by move=> c; rewrite /factprod big1_seq // => x /andP[_ xa]; have := allP c x xa; case: x {xa} => [|[|]]. Qed.

Lemma sum_one_each l (G : seq nat -> R) :
  \sum_(T <- subs s | sumn T == l) (ways s T)%:R * G T = \sum_(a <- comps n l | cf a) G (a ++ nseq (m - n) 0%N).
Proof.
rewrite -big_filter (perm_big _ (subs_one_each l)) /= big_map big_filter.
rewrite big_seq_cond [RHS]big_seq_cond; apply: eq_bigr => a; rewrite mem_comps => /andP[/andP[/eqP sa _] c]; by rewrite ways_one_each // mul1r.
Qed.

Lemma cf_weight l a : cf a -> spread_weight R n l a = l`!%:R / n%:R ^+ l.
Proof. by move=> c; rewrite /spread_weight cf_factprod // divr1. Qed.

(* the law of independent particles is a mixture of the exact one and another one *)
Lemma spread_split l t : (l <= n)%N -> spread_prob m e D n l t = free_prob l * lost_prob e D s l t +
  \sum_(a <- comps n l | ~~ cf a) spread_weight R n l a * traced_prob e D (a ++ nseq (m - n) 0%N) t.
Proof.
move=> ln; rewrite /spread_prob (bigID cf) /=; congr (_ + _).
rewrite /lost_prob sumn_one_each sum_one_each /free_prob.
transitivity (l`!%:R / n%:R ^+ l * \sum_(a <- comps n l | cf a) traced_prob e D (a ++ nseq (m - n) 0%N) t).
  by rewrite mulr_sumr; apply: eq_bigr => a c; rewrite cf_weight.
have b0 : ('C(n, l)%:R : R) != 0 by rewrite pnatr_eq0 -lt0n bin_gt0.
rewrite -bin_ffact natrM; move: (\sum_(_ <- _ | _) _) 'C(n, l)%:R b0 l`!%:R => x y y0 z.
have p0 : (n%:R ^+ l : R) != 0 by rewrite expf_neq0 // pnatr_eq0 -lt0n.
by move: (n%:R ^+ l : R) p0 => w w0; field; rewrite ?y0 ?w0.
Qed.

Lemma free_weight l : (l <= n)%N -> \sum_(a <- comps n l | cf a) spread_weight R n l a = free_prob l.
Proof.
move=> ln; have := vandermonde R s l; rewrite sumn_one_each.
under eq_bigr => T _ do rewrite -[(ways s T)%:R]mulr1.
rewrite (sum_one_each l (fun=> 1)) => E.
rewrite (eq_bigr (fun=> l`!%:R / n%:R ^+ l * 1)) => [|a c]; last by rewrite mulr1 cf_weight.
by rewrite -mulr_sumr E /free_prob -bin_ffact natrM mulrC mulrA.
Qed.

Lemma free_prob_le1 l : (l <= n)%N -> free_prob l <= 1.
Proof.
move=> ln; rewrite -(spread_weight_sum l n0) -free_weight // [X in _ <= X](bigID cf) /= ler_addl.
by apply: sumr_ge0 => a _; exact: spread_weight_ge0.
Qed.

Lemma lost_ge0 l t : 0 <= lost_prob e D s l t.
Proof. by rewrite divr_ge0 ?ler0n // sumr_ge0 // => T _; rewrite mulr_ge0 ?ler0n ?traced_ge0. Qed.

Lemma lost_norm l : (l <= n)%N -> \sum_(t <- lcomps m l) lost_prob e D s l t = 1.
Proof.
move=> ln; rewrite -mulr_suml exchange_big /=.
have -> : \sum_(T <- subs s | sumn T == l) \sum_(t <- lcomps m l) (ways s T)%:R * traced_prob e D T t = 'C(sumn s, l)%:R.
  rewrite -vandermonde big_seq_cond [RHS]big_seq_cond; apply: eq_bigr => T /andP[]; rewrite mem_subs => /substateP[sT _] /eqP eT.
  by rewrite -mulr_sumr -eT traced_norm ?mulr1 // sT size_one_each.
by rewrite divff // pnatr_eq0 -lt0n bin_gt0 sumn_one_each.
Qed.

Lemma spread_ge0 l t : 0 <= spread_prob m e D n l t.
Proof. by apply: sumr_ge0 => a _; rewrite mulr_ge0 ?spread_weight_ge0 ?traced_ge0. Qed.

Lemma traced_pad_norm l a : a \in comps n l -> \sum_(t <- lcomps m l) traced_prob e D (a ++ nseq (m - n) 0%N) t = 1.
Proof.
rewrite mem_comps => /andP[/eqP sa /eqP ea].
rewrite -[RHS](@traced_norm (a ++ nseq (m - n) 0%N)) ?size_cat ?sa ?size_nseq ?subnKC //.
by rewrite sumn_cat sumn_nseq mul0n addn0 ea.
Qed.

Lemma spread_norm l : \sum_(t <- lcomps m l) spread_prob m e D n l t = 1.
Proof.
rewrite -(spread_weight_sum l n0) exchange_big; apply: eq_big_seq => a aC /=.
by rewrite -mulr_sumr traced_pad_norm ?mulr1.
Qed.

Lemma spread_close l : (l <= n)%N ->
  \sum_(t <- lcomps m l) `|spread_prob m e D n l t - lost_prob e D s l t| <= 2%:R * (1 - free_prob l).
Proof.
move=> ln; have q1 := free_prob_le1 ln.
pose r t := \sum_(a <- comps n l | ~~ cf a) spread_weight R n l a * traced_prob e D (a ++ nseq (m - n) 0%N) t.
have r0 t : 0 <= r t by apply: sumr_ge0 => a _; rewrite mulr_ge0 ?spread_weight_ge0 ?traced_ge0.
have rs : \sum_(t <- lcomps m l) r t = 1 - free_prob l.
  have := spread_norm l; under eq_bigr => t _ do rewrite spread_split // -/(r t).
  by rewrite big_split /= -mulr_sumr lost_norm // mulr1 => <-; rewrite addrC addKr.
apply: (@le_trans _ _ (\sum_(t <- lcomps m l) ((1 - free_prob l) * lost_prob e D s l t + r t))).
  apply: ler_sum => t _; rewrite spread_split // -/(r t).
  have -> : free_prob l * lost_prob e D s l t + r t - lost_prob e D s l t = r t - (1 - free_prob l) * lost_prob e D s l t by ring.
  apply: le_trans (ler_norm_sub _ _) _; rewrite addrC !ger0_norm // mulr_ge0 ?subr_ge0 ?lost_ge0 //.
by rewrite big_split /= rs -mulr_sumr lost_norm // mulr1 mulrDl mul1r.
Qed.

(* the collision probability *)
Lemma free_prob_bound l : (l <= n)%N -> 1 - free_prob l <= (l * l.-1)%:R / (2 * n)%:R.
Proof.
have nR : (n%:R : R) != 0 by rewrite pnatr_eq0 -lt0n.
elim: l => [|l IH] ln; first by rewrite /free_prob ffactn0 expr0 divr1 subrr mul0n mul0r.
have -> : free_prob l.+1 = free_prob l * (1 - l%:R / n%:R).
  rewrite /free_prob ffactnSr natrM exprSr natrB ?(ltnW ln) //.
  have p0 : (n%:R ^+ l : R) != 0 by rewrite expf_neq0.
  by move: (n ^_ l)%:R (n%:R ^+ l) p0 => a b b0; field; rewrite ?nR ?b0.
have q1 := free_prob_le1 (ltnW ln); have {IH} := IH (ltnW ln).
move: (free_prob l) q1 => q q1 IH.
have -> : 1 - q * (1 - l%:R / n%:R) = (1 - q) + q * (l%:R / n%:R) by ring.
apply: le_trans (ler_add IH (ler_wpmul2r _ q1)) _; first by rewrite divr_ge0 ?ler0n.
rewrite mul1r le_eqVlt; apply/orP; left; apply/eqP.
have -> : (l.+1 * l.+1.-1)%:R = (l * l.-1)%:R + 2%:R * l%:R :> R by rewrite -natrM -natrD; congr _%:R; case: (l) => // k /=; lia.
by rewrite natrM; field.
Qed.
End Norm.
