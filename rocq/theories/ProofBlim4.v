(* How far the law of the approximate sampler is from the exact one. *)
From mathcomp Require Import all_ssreflect all_algebra complex.
From mathcomp Require Import ring zify.
From Verif Require Import Base SpecStates Combi SpecPerm PermMath SpecBS BsMath BsComb BsNorm SpecNet ProofGccB2 ProofNet4 ProofNet5 ProofThin ProofBobs2 ProofBobs4 ProofSym3 ProofSym5 SpecLim ProofLim3 ProofLim5 ProofLim6 SpecBlim.
Set Implicit Arguments.
Unset Strict Implicit.
Unset Printing Implicit Defensive.
Import Order.TTheory GRing.Theory Num.Theory.
Local Open Scope ring_scope.

Section Weights.
Variable R : rcfType.

Lemma subs_lcomps k a (G : seq nat -> R) : size a = k ->
  \sum_(b <- subs a) (ways a b)%:R * G b = \sum_(b <- lcomps k (sumn a)) (ways a b)%:R * G b.
Proof.
move=> sa; rewrite [RHS](bigID (substate^~ a)) /= [X in _ = _ + X]big_seq_cond [X in _ = _ + X]big1 ?addr0 => [|b]; last first.
  by rewrite mem_lcomps => /andP[/andP[/eqP sb _] nb]; rewrite ways_nsub ?sb // mul0r.
rewrite -[RHS]big_filter; apply: perm_big; apply: uniq_perm; rewrite ?filter_uniq ?subs_uniq ?lcomps_uniq // => b.
rewrite mem_filter mem_subs mem_lcomps; case sb: (substate b a) => //=.
by have [-> _] := substateP _ _ sb; rewrite sa eqxx substate_sumn.
Qed.

Lemma big_above k p b (G : seq nat -> R) : size b = k -> (sumn b <= p)%N ->
  \sum_(a <- comps k p | substate b a) G (missing a b) = \sum_(c <- comps k (p - sumn b)) G c.
Proof.
move=> sb le; rewrite -big_filter -(big_map (missing^~ b) xpredT); apply: perm_big; apply: uniq_perm; rewrite ?comps_uniq //.
  rewrite map_inj_in_uniq ?filter_uniq ?comps_uniq // => a a'; rewrite !mem_filter !mem_comps.
  move=> /and3P[/substateP[z h] _ _] /and3P[/substateP[z' h'] _ _] eq; apply: (@eq_from_nth _ 0%N); first by rewrite -z -z'.
  move=> i _; have := congr1 (nth 0%N ^~ i) eq; rewrite /= !nth_missing; have := h i; have := h' i; lia.
move=> c; apply/mapP/idP.
  move=> [a]; rewrite mem_filter !mem_comps => /and3P[sub /eqP sa /eqP ea] ->.
  by rewrite /is_state size_missing sa eqxx sumn_missing // ea eqxx.
rewrite mem_comps => /andP[/eqP sc /eqP ec].
pose a := [seq (nth 0%N b i + nth 0%N c i)%N | i <- iota 0 k].
have sa : size a = k by rewrite size_map size_iota.
have na i : nth 0%N a i = (nth 0%N b i + nth 0%N c i)%N.
  case: (ltnP i k) => il; first by rewrite (nth_map 0%N) ?size_iota // nth_iota.
  by rewrite !nth_default ?sa ?sb ?sc.
have sub : substate b a by apply/substateP; rewrite sa sb; split=> // i; rewrite na leq_addr.
have ea : missing a b = c.
  by apply: (@eq_from_nth _ 0%N); rewrite size_missing ?sa ?sc // => i _; rewrite nth_missing na addKn.
exists a => //; rewrite mem_filter mem_comps sub /is_state sa eqxx /=.
have := sumn_missing sub; rewrite ea ec; have := substate_sumn sub; move=> h1 h2; apply/eqP; lia.
Qed.

Lemma multinomial_ones k q : \sum_(c <- comps k q) q`!%:R / (factprod c)%:R = k%:R ^+ q :> R.
Proof.
have := @multinomial_theorem R (fun=> 1) k q; rewrite sumr_const card_ord => ->.
apply: eq_bigr => a _; rewrite /mono big1 ?mulr1 // => i _; exact: expr1n.
Qed.

Lemma spread_thin k p b : (0 < k)%N -> size b = k -> (sumn b <= p)%N ->
  \sum_(a <- comps k p) spread_weight R k p a * (ways a b)%:R = 'C(p, sumn b)%:R * spread_weight R k (sumn b) b.
Proof.
move=> k0 sb le; rewrite (bigID (substate b)) /= [X in _ + X]big_seq_cond [X in _ + X]big1 ?addr0 => [|a]; last first.
  by rewrite mem_comps => /andP[/andP[/eqP sa _] nb]; rewrite ways_nsub ?sb ?sa // mulr0.
have F0 c : ((factprod c)%:R : R) != 0 by rewrite pnatr_eq0 -lt0n factprod_gt0.
have K0 j : (k%:R ^+ j : R) != 0 by rewrite expf_neq0 // pnatr_eq0 -lt0n.
have f0 j : (j`!%:R : R) != 0 by rewrite pnatr_eq0 -lt0n fact_gt0.
transitivity (\sum_(a <- comps k p | substate b a) p`!%:R / k%:R ^+ p / (factprod b)%:R / (p - sumn b)`!%:R *
   ((p - sumn b)`!%:R / (factprod (missing a b))%:R) : R).
  apply: eq_bigr => a sub; rewrite /spread_weight -(ways_missing sub) !natrM.
  have w0 : ((ways a b)%:R : R) != 0 by rewrite pnatr_eq0 -lt0n ways_gt0.
  move: (ways a b)%:R w0 (factprod b)%:R (F0 b) (factprod _)%:R (F0 (missing a b)) p`!%:R (k%:R ^+ p) (K0 p) ((p - sumn b)`!%:R) (f0 (p - sumn b)%N).
  by move=> w w0 x x0 y y0 z u u0 v v0; field; rewrite ?w0 ?x0 ?y0 ?u0 ?v0.
rewrite (big_above (fun c => p`!%:R / k%:R ^+ p / (factprod b)%:R / (p - sumn b)`!%:R * ((p - sumn b)`!%:R / (factprod c)%:R))) //.
rewrite -mulr_sumr multinomial_ones /spread_weight.
have <- : (k%:R ^+ sumn b * k%:R ^+ (p - sumn b))%R = k%:R ^+ p :> R by rewrite -exprD subnKC.
have <- : ('C(p, sumn b)%:R * ((sumn b)`!%:R * (p - sumn b)`!%:R))%R = p`!%:R :> R by rewrite -!natrM bin_fact.
move: 'C(p, sumn b)%:R (sumn b)`!%:R (p - sumn b)`!%:R (f0 (p - sumn b)%N) (k%:R ^+ sumn b) (K0 (sumn b)) (k%:R ^+ (p - sumn b)) (K0 (p - sumn b)%N) (factprod b)%:R (F0 b).
by move=> x y z z0 u u0 v v0 w w0; field; rewrite ?z0 ?u0 ?v0 ?w0.
Qed.

Lemma ways_ones k b : size b = k -> ways (nseq k 1%N) b = cf b.
Proof.
elim: k b => [|k IH] [|x b] //=; first by move=> _; rewrite /ways big_ord0.
by move=> [sb]; rewrite ways_cons IH //; case: x => [|[|x]] //=; rewrite ?mul1n // bin_small.
Qed.

Lemma cf_count k l : \sum_(b <- comps k l) (cf b)%:R = 'C(k, l)%:R :> R.
Proof.
have sk : one_each k k = nseq k 1%N by rewrite /one_each subnn cats0.
have := vandermonde R (one_each k k) l; rewrite sumn_one_each => <-.
under [RHS]eq_bigr => T _ do rewrite -[(ways _ T)%:R]mulr1.
by rewrite (sum_one_each (leqnn k) l (fun=> 1)) [RHS]big_mkcond; apply: eq_bigr => b _; case: (cf b).
Qed.

(* the weights of independent particles and of particles in different modes *)
Lemma weight_close k l : (0 < k)%N -> (l <= k)%N ->
  \sum_(b <- comps k l) `|spread_weight R k l b - (cf b)%:R / 'C(k, l)%:R| = 2%:R * (1 - free_prob R k l).
Proof.
move=> k0 lk; have b0 : (0 < 'C(k, l)%:R :> R) by rewrite ltr0n bin_gt0.
have E b : cf b -> spread_weight R k l b = free_prob R k l / 'C(k, l)%:R.
  move=> c; rewrite cf_weight // /free_prob -bin_ffact natrM.
  have p0 : (k%:R ^+ l : R) != 0 by rewrite expf_neq0 // pnatr_eq0 -lt0n.
  have b1 := lt0r_neq0 b0; move: (k%:R ^+ l) p0 'C(k, l)%:R b1 l`!%:R => u u0 v v0 w; by field; rewrite ?u0 ?v0.
have q1 := free_prob_le1 R k0 (leqnn k) lk.
rewrite (bigID cf) /=.
have -> : \sum_(b <- comps k l | cf b) `|spread_weight R k l b - (cf b)%:R / 'C(k, l)%:R| = 1 - free_prob R k l.
  rewrite (eq_bigr (fun b => (1 - free_prob R k l) / 'C(k, l)%:R * (cf b)%:R)) => [|b c]; last first.
    by rewrite E // c mulr1 distrC -mulrBl ger0_norm // divr_ge0 ?subr_ge0 // ltW.
  rewrite -mulr_sumr.
  have -> : \sum_(b <- comps k l | cf b) (cf b)%:R = 'C(k, l)%:R :> R.
    by rewrite -cf_count [RHS](bigID cf) /= [X in _ = _ + X]big1 ?addr0 // => b /negPf ->.
  by rewrite divfK // lt0r_neq0.
rewrite (eq_bigr (fun b => spread_weight R k l b)) => [|b /negPf ->]; last first.
  by rewrite mul0r subr0 ger0_norm // spread_weight_ge0.
have := spread_weight_sum R l k0; rewrite (bigID cf) /= (free_weight R (leqnn k) lk) => h.
have -> : \sum_(i <- comps k l | ~~ cf i) spread_weight R k l i = 1 - free_prob R k l by rewrite -h addrC addKr.
by rewrite mulr_natl mulr2n.
Qed.

Lemma thin_total (eta : R) s : 0 <= eta <= 1 -> \sum_(K <- subs s) thin_weight (1 - eta) s K = 1.
Proof.
move=> e01; have f01 : 0 <= 1 - eta <= 1 by case/andP: e01 => h h'; rewrite subr_ge0 h' ler_subl_addr ler_addl h.
elim: s => [|n s IH].
  by rewrite big_seq1 /thin_weight /ways big_ord0 /= !expr0 !mulr1.
rewrite ProofBobs2.big_subs_cons -[RHS](binomial_weight_sum n eta); apply: eq_bigr => k _.
rewrite big_seq (eq_bigr (fun K => binomial_weight n eta k * thin_weight (1 - eta) s K)) => [|K]; last first.
  by rewrite mem_subs => sK; have := ltn_ord k; rewrite ltnS => kn; rewrite (thin_weight_cons f01 kn sK) subKr.
by rewrite -big_seq -mulr_sumr IH mulr1.
Qed.
End Weights.

Section Close.
Variable R : rcfType.
Notation C := (ComplexField.complex_numFieldType R).
Notation mat := (seq (seq C)).
Variables (m d e k : nat) (N DN M D : mat) (eta : R).
Hypotheses (dN : dilation m d N DN) (dD : dilation m e M D) (e01 : 0 <= eta <= 1) (k0 : (0 < k)%N) (km : (k <= m)%N).
Hypothesis hM : forall i j : nat, (i < m)%N -> (j < m)%N -> ent M i j = (Num.sqrt eta)%:C%C * ent N i j.
Variable r : seq nat.
Hypothesis sr : size r = (m - k)%N.

Let eta0 : 0 <= eta. Proof. by case/andP: e01. Qed.
Let eta1 : 0 <= 1 - eta. Proof. by case/andP: e01 => _ h; rewrite subr_ge0. Qed.

(* the particles in the first k modes are b, those in the others are thinned *)
Definition rest_prob (t b : seq nat) : R :=
  \sum_(c <- subs r) thin_weight (1 - eta) r c * (if (sumn t <= sumn b + sumn c)%N then traced_prob d DN (b ++ c) t else 0).

Lemma rest_ge0 t b : 0 <= rest_prob t b.
Proof.
apply: sumr_ge0 => c _; apply: mulr_ge0; last by case: ifP => // _; exact: traced_ge0.
by rewrite /thin_weight subKr !mulr_ge0 ?ler0n ?exprn_ge0.
Qed.

Lemma rest_norm n b : size b = k -> (sumn b <= n)%N -> \sum_(t <- lcomps m (n + sumn r)) rest_prob t b = 1.
Proof.
move=> sb le; rewrite exchange_big -[RHS](thin_total r e01); apply: eq_big_seq => c; rewrite mem_subs => sc /=.
rewrite -mulr_sumr -big_mkcond /=.
have sz : size (b ++ c) = m by rewrite size_cat sb; have [-> _] := substateP _ _ sc; rewrite sr subnKC.
have := traced_norm dN sz; rewrite (@lcomps_sum _ m _ (n + sumn r)) ?sumn_cat; first by move=> ->; rewrite mulr1.
by rewrite leq_add // substate_sumn.
Qed.

Lemma thin_expand a t : size a = k -> size t = m -> (sumn t <= sumn a + sumn r)%N ->
  traced_prob e D (a ++ r) t = \sum_(b <- lcomps k (sumn a)) (ways a b)%:R * (eta ^+ sumn b * (1 - eta) ^+ (sumn a - sumn b) * rest_prob t b).
Proof.
move=> sa st le.
have xc : Num.sqrt eta ^+ 2 + Num.sqrt (1 - eta) ^+ 2 = 1 by rewrite !sqr_sqrtr // addrCA subrr addr0.
rewrite (traced_thin dN dD xc hM) ?size_cat ?sa ?sr ?subnKC ?sumn_cat // !sqr_sqrtr //.
rewrite -(subs_lcomps _ sa) big_mkcond big_subs_cat; apply: eq_big_seq => b; rewrite mem_subs => sb.
have [zb _] := substateP _ _ sb; rewrite /rest_prob !mulr_sumr; apply: eq_big_seq => c; rewrite mem_subs => sc.
rewrite sumn_cat; case: ifP => _; last by rewrite !mulr0.
rewrite ways_cat // natrM /thin_weight subKr exprD.
have -> : (sumn a + sumn r - (sumn b + sumn c) = (sumn a - sumn b) + (sumn r - sumn c))%N.
  by have := substate_sumn sb; have := substate_sumn sc; lia.
rewrite exprD; move: (ways a b)%:R (ways r c)%:R (eta ^+ sumn b) (eta ^+ sumn c) (_ ^+ _) (_ ^+ _) (traced_prob _ _ _ _) => x y z u v w q.
by ring.
Qed.

Lemma spread_rest_expand p t : size t = m -> (sumn t <= p + sumn r)%N ->
  spread_rest e D k p r t = \sum_(b <- lcomps k p) binomial_weight p eta (sumn b) * spread_weight R k (sumn b) b * rest_prob t b.
Proof.
move=> st le; transitivity (\sum_(a <- comps k p) \sum_(b <- lcomps k p) spread_weight R k p a * (ways a b)%:R * (eta ^+ sumn b * (1 - eta) ^+ (p - sumn b) * rest_prob t b)).
  apply: eq_big_seq => a; rewrite mem_comps => /andP[/eqP sa /eqP ea]; rewrite thin_expand ?ea // mulr_sumr.
  by apply: eq_bigr => b _; rewrite mulrA.
rewrite exchange_big; apply: eq_big_seq => b; rewrite mem_lcomps => /andP[/eqP sb bp] /=.
rewrite -mulr_suml spread_thin // /binomial_weight.
by move: 'C(_, _)%:R (spread_weight _ _ _ _) (eta ^+ _) ((1 - eta) ^+ _) (rest_prob _ _) => x y z u v; ring.
Qed.

Lemma spread_rest_ge0 p t : 0 <= spread_rest e D k p r t.
Proof. by apply: sumr_ge0 => a _; rewrite mulr_ge0 ?spread_weight_ge0 ?traced_ge0. Qed.

Lemma spread_rest_norm p : \sum_(t <- lcomps m (p + sumn r)) spread_rest e D k p r t = 1.
Proof.
rewrite exchange_big -[RHS](spread_weight_sum R p k0); apply: eq_big_seq => a; rewrite mem_comps => /andP[/eqP sa /eqP ea] /=.
rewrite -mulr_sumr; have := @traced_norm _ _ _ _ _ dD (a ++ r); rewrite size_cat sa sr subnKC // sumn_cat ea => -> //.
exact: mulr1.
Qed.

Lemma spread_rest_close :
  \sum_(t <- lcomps m (k + sumn r)) `|spread_rest e D k k r t - traced_prob e D (nseq k 1%N ++ r) t| <= k.-1%:R * eta ^+ 2.
Proof.
pose w b := binomial_weight k eta (sumn b) * spread_weight R k (sumn b) b - (cf b)%:R * (eta ^+ sumn b * (1 - eta) ^+ (k - sumn b)).
have sk : sumn (nseq k 1%N) = k by rewrite sumn_nseq mul1n.
apply: (@le_trans _ _ (\sum_(t <- lcomps m (k + sumn r)) \sum_(b <- lcomps k k) `|w b| * rest_prob t b)).
  rewrite big_seq [X in _ <= X]big_seq; apply: ler_sum => t; rewrite mem_lcomps => /andP[/eqP st tl].
  rewrite spread_rest_expand // thin_expand ?size_nseq ?sk // -sumrB.
  apply: le_trans (ler_norm_sum _ _ _) _; rewrite big_seq [X in _ <= X]big_seq; apply: ler_sum => b.
  rewrite mem_lcomps => /andP[/eqP sb _]; rewrite ways_ones // [X in `|_ - X|]mulrA -mulrBl normrM [`|rest_prob _ _|]ger0_norm ?rest_ge0 //.
rewrite exchange_big (eq_big_seq (fun b => `|w b|)) => [|b]; last first.
  by rewrite mem_lcomps => /andP[/eqP sb bk]; rewrite -mulr_sumr rest_norm ?mulr1.
rewrite big_lcomps.
apply: (@le_trans _ _ (\sum_(l < k.+1) binomial_weight k eta l * ((l * l.-1)%:R / k%:R))).
  apply: ler_sum => l _; have lk : (l <= k)%N by rewrite -ltnS.
  have b0 : 0 <= binomial_weight k eta l by exact: binomial_weight_ge0.
  have -> : \sum_(b <- comps k l) `|w b| = binomial_weight k eta l * (2%:R * (1 - free_prob R k l)).
    rewrite -weight_close // mulr_sumr; apply: eq_big_seq => b; rewrite mem_comps => /andP[_ /eqP eb].
    rewrite -[X in X * _](ger0_norm b0) -normrM /w eb; congr (`|_|); rewrite /binomial_weight.
    have c0 : ('C(k, l)%:R : R) != 0 by rewrite pnatr_eq0 -lt0n bin_gt0.
    by move: 'C(k, l)%:R c0 (eta ^+ _) ((1 - eta) ^+ _) (spread_weight _ _ _ _) (cf b)%:R => x x0 y z u v; field.
  apply: ler_wpmul2l => //; have := free_prob_bound R k0 (leqnn k) lk.
  rewrite [X in _ / X]natrM -(ler_pmul2l (_ : 0 < 2%:R :> R)) ?ltr0n // => h; apply: le_trans h _; rewrite le_eqVlt; apply/orP; left; apply/eqP.
  have kR : (k%:R : R) != 0 by rewrite pnatr_eq0 -lt0n.
  by field.
under eq_bigr => l _ do rewrite mulrA.
rewrite -mulr_suml binomial_second natrM.
have kR : (k%:R : R) != 0 by rewrite pnatr_eq0 -lt0n.
by rewrite le_eqVlt; apply/orP; left; apply/eqP; move: (k.-1%:R) => x; field.
Qed.
End Close.
