(* Losses in front of the network and losses behind it. *)
From mathcomp Require Import all_ssreflect all_algebra complex.
From mathcomp Require Import ring zify.
From Verif Require Import SpecStates Combi SpecPerm PermMath SpecBS BsMath BsComb BsNorm SpecSym BsSym.
From Verif Require Import ProofSym2.
Set Implicit Arguments.
Unset Strict Implicit.
Unset Printing Implicit Defensive.
Import GRing.Theory Num.Theory.
Local Open Scope ring_scope.

Lemma ways_nsub t' t : size t' = size t -> ~~ substate t t' -> ways t' t = 0%N.
Proof.
move=> z; rewrite /substate z eqxx andTb => H; have /allPn[ i] := H; rewrite mem_iota => /andP[_ il] nle.
rewrite -z in il; rewrite /ways (bigD1 (Ordinal il)) //= bin_small ?mul0n //.
by rewrite ltnNge.
Qed.

Lemma bin_trinomial k a b : ('C(k + a + b, k + a) * 'C(k + a, k) = 'C(k + a + b, k) * 'C(a + b, a))%N.
Proof.
have f0 : (0 < k`! * a`! * b`!)%N by rewrite !muln_gt0 !fact_gt0.
apply/eqP; rewrite -(eqn_pmul2r f0); apply/eqP.
have e1 := @bin_fact (k + a + b) (k + a) (leq_addr _ _); rewrite addKn in e1.
have e2 := @bin_fact (k + a) k (leq_addr _ _); rewrite addKn in e2.
have e3 := @bin_fact (k + a + b) k; rewrite -addnA leq_addr addKn addnA in e3; have {}e3 := e3 isT.
have e4 := @bin_fact (a + b) a (leq_addr _ _); rewrite addKn in e4.
transitivity ((k + a + b)`!); first by rewrite -e1 -e2 -!mulnA.
by rewrite -e3 -e4 -!mulnA [(k`! * (_ * _))%N]mulnCA.
Qed.

Section Losses.
Variable R : rcfType.
Notation C := R[i].
Implicit Types (U : seq (seq C)) (s t T : seq nat).

(* one particle less at the output, one particle less at the input *)
Lemma bs_prob_step m U T t : unitary_on m U T -> size t = m -> sumn T = (sumn t).+1 ->
  \sum_(j < m) (nth 0%N t j).+1%:R * bs_prob U T (incr t j) =
  \sum_(i < size T) (nth 0%N T i)%:R * bs_prob U (decr T i) t.
Proof.
move=> u zt e; have E := marginal u zt e.
have f0 (r : seq nat) : (factprod r)%:R != 0 :> R by exact: factprod_neq0.
transitivity ((\sum_(j < m) nsq (bs_permanent U T (incr t j))) / ((factprod T)%:R * (factprod t)%:R)).
  rewrite mulr_suml; apply: eq_bigr => j _; rewrite /bs_prob natrM factprod_incr ?zt // natrM.
  have n0 : ((nth 0%N t j).+1)%:R != 0 :> R by rewrite pnatr_eq0.
  move: n0 (f0 T) (f0 t); move: (((nth 0%N t j).+1)%:R : R) ((factprod T)%:R : R) ((factprod t)%:R : R) => a b c n0 b0 c0.
  by field; rewrite c0 b0 n0.
rewrite E mulr_suml; apply: eq_bigr => i _; case: (posnP (nth 0%N T i)) => [->|ip]; first by rewrite expr0n !mul0r.
rewrite /bs_prob natrM (factprod_decr ip) natrM.
have n0 : ((nth 0%N T i))%:R != 0 :> R by rewrite pnatr_eq0 -lt0n.
move: n0 (f0 (decr T i)) (f0 t); move: (((nth 0%N T i))%:R : R) ((factprod (decr T i))%:R : R) ((factprod t)%:R : R) => a b c n0 b0 c0.
by field; rewrite c0 b0 n0.
Qed.

Lemma fixed_loss_step m U s t : unitary_on m U s -> size s = m -> size t = m -> (sumn t < sumn s)%N ->
  (sumn t).+1%:R * fixed_loss_prob U s t = \sum_(j < m) (nth 0%N t j).+1%:R * fixed_loss_prob U s (incr t j).
Proof.
move=> u zs zt lt; set l := sumn t; set n := sumn s.
have sw1 (a b c d : R) : a * b * c * d = b * d * (a * c) by ring.
have sw2 (a b c d : R) : a * d * (b * c) = b * (a * c * d) by ring.
have c0 k : (k <= n)%N -> 'C(n, k)%:R != 0 :> R by move=> kn; rewrite pnatr_eq0 -lt0n bin_gt0.
have si (j : 'I_m) : sumn (incr t j) = l.+1 by rewrite sumn_incr ?zt.
transitivity ((\sum_(T <- subs s | sumn T == l.+1) \sum_(i < m) (nth 0%N T i)%:R * (ways s T)%:R * bs_prob U (decr T i) t)
   / 'C(n, l.+1)%:R); last first.
  rewrite mulr_suml.
  transitivity (\sum_(j < m) \sum_(T <- subs s | sumn T == l.+1) (nth 0%N t j).+1%:R * ((ways s T)%:R * bs_prob U T (incr t j) / 'C(n, l.+1)%:R)).
    rewrite exchange_big /= big_seq_cond [RHS]big_seq_cond; apply: eq_bigr => T /andP[].
    rewrite mem_subs => sT /eqP eT; have zT : size T = m by case/substateP: sT => ->.
    have uT := unitary_on_substate u sT.
    have := bs_prob_step uT zt eT; rewrite zT => E.
    transitivity ((ways s T)%:R / 'C(n, l.+1)%:R * \sum_(i < m) (nth 0%N T i)%:R * bs_prob U (decr T i) t).
      by rewrite mulr_sumr mulr_suml; apply: eq_bigr => i _; apply: sw1.
    by rewrite -E mulr_sumr; apply: eq_bigr => j _; apply: sw2.
  by apply: eq_bigr => j _; rewrite /fixed_loss_prob si -mulr_sumr -mulr_suml.
have := @ways_step R s l (fun i T => bs_prob U (decr T i) t); rewrite zs => ->.
transitivity ((\sum_(T <- subs s | sumn T == l) (n - l)%:R * ((ways s T)%:R * bs_prob U T t)) / 'C(n, l.+1)%:R); last first.
  congr (_ / _); rewrite big_seq_cond [RHS]big_seq_cond; apply: eq_bigr => T /andP[].
  rewrite mem_subs => sT /eqP eT; have zT : size T = m by case/substateP: sT => ->.
  rewrite -eT -(sumn_subn sT) zs natr_sum mulr_suml; apply: eq_bigr => i _.
  by rewrite decr_incr ?zT // mulrA.
rewrite -mulr_sumr /fixed_loss_prob -/l -/n.
have E : (l.+1)%:R * 'C(n, l.+1)%:R = (n - l)%:R * 'C(n, l)%:R :> R by rewrite -!natrM mul_bin_left.
move: E (c0 l (ltnW lt)) (c0 l.+1 lt).
move: ('C(n, l)%:R : R) ('C(n, l.+1)%:R : R) ((n - l)%:R : R) ((l.+1)%:R : R) (\sum_(T <- subs s | _) _) => a b c d X E a0 b0.
apply: (mulIf a0); apply: (mulIf b0).
transitivity (X * (d * b)); first by field.
by rewrite E; field.
Qed.

Lemma fixed_loss_after m U s t l' : unitary_on m U s -> size s = m -> size t = m ->
  (sumn t <= l' <= sumn s)%N ->
  fixed_loss_prob U s t = fixed_after m l' (fixed_loss_prob U s) t.
Proof.
move=> u zs zt /andP[tl ls]; rewrite /fixed_after.
have [d ed] := ex_intro (fun d => l' - sumn t = d)%N _ erefl.
elim: d t zt tl ed => [|d IH] t zt tl ed.
  have et : sumn t = l' by lia.
  have tin : t \in comps m l' by rewrite mem_comps /is_state zt et !eqxx.
  rewrite et binn divr1 (bigD1_seq t) ?comps_uniq //= ways_self mul1r big1_seq ?addr0 // => t' /andP[ne].
  rewrite mem_comps => /andP[/eqP zt' /eqP et'].
  rewrite ways_nsub ?mul0r ?zt' //; apply: contraNN ne => st.
  by apply/eqP/esym; apply: substate_sumn_eq; rewrite // et.
have lt : (sumn t < sumn s)%N by lia.
have n0 : (sumn t).+1%:R != 0 :> R by rewrite pnatr_eq0.
apply: (mulfI n0); rewrite (fixed_loss_step u zs zt lt).
have si (j : 'I_m) : sumn (incr t j) = (sumn t).+1 by rewrite sumn_incr ?zt.
have c0 k : (k <= l')%N -> 'C(l', k)%:R != 0 :> R by move=> kn; rewrite pnatr_eq0 -lt0n bin_gt0.
transitivity (\sum_(t' <- comps m l') \sum_(j < m)
   ((nth 0%N t' j - nth 0%N t j)%:R * (ways t' t)%:R * fixed_loss_prob U s t') / 'C(l', (sumn t).+1)%:R).
  rewrite exchange_big /=; apply: eq_bigr => j _.
  rewrite IH ?size_incr ?zt // ?si; [|by lia|by lia].
  rewrite -mulr_suml mulrA; congr (_ / _); rewrite mulr_sumr; apply: eq_big_seq => t'.
  rewrite mem_comps => /andP[/eqP zt' /eqP et']; rewrite mulrA; congr (_ * _).
  by rewrite -!natrM ways_incr ?zt ?zt'.
transitivity (\sum_(t' <- comps m l') (l' - sumn t)%:R * (ways t' t)%:R * fixed_loss_prob U s t' / 'C(l', (sumn t).+1)%:R).
  apply: eq_big_seq => t'; rewrite mem_comps => /andP[/eqP zt' /eqP et'].
  case: (boolP (substate t t')) => st; last first.
    rewrite ways_nsub ?zt' // mulr0 !mul0r big1 // => j _; by rewrite mulr0 !mul0r.
  have E : (l' - sumn t)%:R = \sum_(j < m) (nth 0%N t' j - nth 0%N t j)%:R :> R.
    by rewrite -et' -(sumn_subn st) natr_sum zt'.
  by rewrite E !mulr_suml.
have E : (sumn t).+1%:R * 'C(l', (sumn t).+1)%:R = (l' - sumn t)%:R * 'C(l', sumn t)%:R :> R by rewrite -!natrM mul_bin_left.
have c1 := c0 _ tl; have c2 : 'C(l', (sumn t).+1)%:R != 0 :> R by apply: c0; lia.
rewrite mulr_suml mulr_sumr; apply: eq_bigr => t' _.
move: E c1 c2; move: ('C(l', sumn t)%:R : R) ('C(l', (sumn t).+1)%:R : R) ((l' - sumn t)%:R : R) ((sumn t).+1%:R : R) ((ways t' t)%:R : R) (fixed_loss_prob U s t') => a b c e X Y E a0 b0.
apply: (mulIf a0); apply: (mulIf b0).
transitivity (X * Y * (c * a)); first by field.
by rewrite -E; field.
Qed.

Lemma binomial_weight_comp n (e1 e2 : R) k : (k <= n)%N ->
  \sum_(l < n.+1) binomial_weight n e1 l * binomial_weight l e2 k = binomial_weight n (e1 * e2) k.
Proof.
move=> kn; rewrite -(big_mkord xpredT (fun l => binomial_weight n e1 l * binomial_weight l e2 k)).
rewrite (@big_cat_nat _ _ _ k) //=; last by rewrite (leq_trans kn).
rewrite big_nat big1 ?add0r => [|l /andP[_ lk]]; last by rewrite /binomial_weight [X in _ * (X%:R * _ * _)]bin_small ?mul0r ?mulr0.
rewrite -{1}[k]add0n big_addn big_mkord subSn //.
have -> : binomial_weight n (e1 * e2) k = 'C(n, k)%:R * (e1 * e2) ^+ k * ((1 - e1) + e1 * (1 - e2)) ^+ (n - k).
  by rewrite /binomial_weight; congr (_ * _ ^+ _); ring.
rewrite exprDn mulr_sumr; apply: eq_bigr => a _; rewrite /binomial_weight.
have al : (a <= n - k)%N by rewrite -ltnS.
move: (nat_of_ord a) al => {a} a al.
have [b eb] : exists b, n = (k + a + b)%N by exists (n - k - a)%N; lia.
have -> : (a + k = k + a)%N by rewrite addnC.
have -> : (k + a - k = a)%N by lia.
rewrite eb; have -> : (k + a + b - (k + a) = b)%N by lia.
have -> : (k + a + b - k = a + b)%N by lia.
rewrite addKn.
have E : 'C(k + a + b, k + a)%:R * 'C(k + a, k)%:R = 'C(k + a + b, k)%:R * 'C(a + b, a)%:R :> R.
  by rewrite -!natrM bin_trinomial.
rewrite -[X in _ = _ * X]mulr_natr !exprMn exprD.
move: E; move: ('C(k + a + b, k + a)%:R : R) ('C(k + a, k)%:R : R) ('C(k + a + b, k)%:R : R) ('C(a + b, a)%:R : R) => x y z w E.
move: (e1 ^+ k) (e1 ^+ a) ((1 - e1) ^+ b) (e2 ^+ k) ((1 - e2) ^+ a) => p1 p2 p3 p4 p5.
transitivity ((x * y) * (p1 * p2 * p3 * p4 * p5)); first by ring.
by rewrite E; ring.
Qed.

Lemma uniform_loss_after m U s e1 e2 t : unitary_on m U s -> size s = m -> size t = m ->
  (sumn t <= sumn s)%N ->
  uniform_loss_prob U s (e1 * e2) t = uniform_after m (sumn s) e2 (uniform_loss_prob U s e1) t.
Proof.
move=> u zs zt ts; rewrite /uniform_loss_prob -binomial_weight_comp // mulr_suml; apply: eq_bigr => l _.
have sw (a b c d e : R) : a * b * c * (d * e) = d * b * c * (a * e) by ring.
have ls : (l <= sumn s)%N by rewrite -ltnS.
transitivity (binomial_weight (sumn s) e1 l * e2 ^+ sumn t * (1 - e2) ^+ (l - sumn t) *
  \sum_(t' <- comps m l) (ways t' t)%:R * fixed_loss_prob U s t'); last first.
  rewrite mulr_sumr; apply: eq_big_seq => t'; rewrite mem_comps => /andP[/eqP zt' /eqP ->].
  by apply: sw.
case: (leqP (sumn t) l) => tl; last first.
  rewrite /binomial_weight [X in _ * (X%:R * _ * _) * _]bin_small // !mul0r mulr0 mul0r big1_seq ?mulr0 // => t'.
  rewrite mem_comps => /andP[_ /andP[/eqP zt' /eqP et']]; rewrite ways_nsub ?mul0r ?zt' //.
  by apply: contraL tl => /substate_sumn; rewrite et' -leqNgt.
rewrite (fixed_loss_after u zs zt (l' := l)) ?tl // /fixed_after /binomial_weight.
have c0 : 'C(l, sumn t)%:R != 0 :> R by rewrite pnatr_eq0 -lt0n bin_gt0.
move: c0; move: ('C(l, sumn t)%:R : R) ('C(sumn s, l)%:R : R) (\sum_(t' <- _) _) => a b X a0.
move: (e1 ^+ l) ((1 - e1) ^+ _) (e2 ^+ _) ((1 - e2) ^+ _) => p1 p2 p3 p4.
by field.
Qed.

Lemma uniform_after_lossless m U s eta t : size s = m ->
  uniform_after m (sumn s) eta (uniform_loss_prob U s 1) t =
  \sum_(t' <- comps m (sumn s)) (ways t' t)%:R * eta ^+ sumn t * (1 - eta) ^+ (sumn s - sumn t) * bs_prob U s t'.
Proof.
move=> zs; rewrite /uniform_after big_ord_recr /= big1 ?add0r.
  apply: eq_big_seq => t'; rewrite mem_comps => /andP[_ /eqP et'].
  by rewrite /uniform_loss_prob fixed_loss_full // et' /binomial_weight binn subnn expr1n expr0 !mul1r.
move=> l _; rewrite big1_seq // => t'; rewrite mem_comps => /andP[_ /andP[_ /eqP et']].
rewrite /uniform_loss_prob /binomial_weight et' subrr expr0n subn_eq0 leqNgt ltn_ord /=.
by rewrite mulr0 mul0r mulr0.
Qed.

End Losses.
