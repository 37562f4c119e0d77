(* Rounding errors of matrix products and of the expanded matrix. *)
From mathcomp Require Import all_ssreflect all_algebra complex.
From mathcomp Require Import ring zify.
From Verif Require Import Base SpecStates SpecPerm SpecBS BsNorm ModelStates ModelPerm ModelDist SpecProb ModelGcc ModelGccB
  ModelNet SpecNet ProofNet1 ProofNet2 ProofNet3 ModelFloat SpecFloat ProofFloat ProofFloat4 ProofFloatDist2
  ModelFloatNet SpecFloatNet ProofFloatNet1.
Set Implicit Arguments.
Unset Strict Implicit.
Unset Printing Implicit Defensive.
Import Order.TTheory GRing.Theory Num.Theory.
Local Open Scope ring_scope.
Local Open Scope py_scope.

Section Prod.
Variables (F : numFieldType) (p q : F).
Hypotheses (p0 : 0 <= p) (q0 : 0 <= q).

Lemma prod_close (a b a0 b0 : F) : `|a0| <= 1 -> `|b0| <= 1 -> `|a - a0| <= p -> `|b - b0| <= q ->
  `|a * b - a0 * b0| <= (1 + p) * (1 + q) - 1 /\ `|a * b| <= (1 + p) * (1 + q).
Proof.
move=> a1 b1 ha hb.
have ha' : `|a| <= 1 + p.
  by rewrite -[a](subrK a0) addrC; apply: le_trans (ler_norm_add _ _) _; apply: ler_add.
have hb' : `|b| <= 1 + q.
  by rewrite -[b](subrK b0) addrC; apply: le_trans (ler_norm_add _ _) _; apply: ler_add.
split; last by rewrite normrM; apply: ler_pmul.
apply: le_trans (ler_dist_add (a0 * b) _ _) _; rewrite -mulrBl -mulrBr !normrM.
have -> : (1 + p) * (1 + q) - 1 = p * (1 + q) + 1 * q by ring.
by apply: ler_add; apply: ler_pmul.
Qed.

Lemma sum_close n (a b a0 b0 : nat -> F) (z U : F) : 1 <= U ->
  (forall k, (k < n)%N -> `|a0 k| <= 1) -> (forall k, (k < n)%N -> `|b0 k| <= 1) ->
  (forall k, (k < n)%N -> `|a k - a0 k| <= p) -> (forall k, (k < n)%N -> `|b k - b0 k| <= q) ->
  `|z - \sum_(k < n) a k * b k| <= (U - 1) * (\sum_(k < n) `|a k * b k|) ->
  `|z - \sum_(k < n) a0 k * b0 k| <= n%:R * (U * ((1 + p) * (1 + q)) - 1).
Proof.
move=> U1 a1 b1 ha hb hz.
apply: le_trans (ler_dist_add (\sum_(k < n) a k * b k) _ _) _.
have h2 : `|\sum_(k < n) a k * b k - \sum_(k < n) a0 k * b0 k| <= n%:R * ((1 + p) * (1 + q) - 1).
  rewrite -sumrB; apply: le_trans (ler_norm_sum _ _ _) _.
  apply: (@le_trans _ _ (\sum_(k < n) ((1 + p) * (1 + q) - 1))); last by rewrite sumr_const card_ord mulr_natl.
  by apply: ler_sum => k _; have [] := @prod_close (a k) (b k) (a0 k) (b0 k) (a1 _ _) (b1 _ _) (ha _ _) (hb _ _).
have h1 : \sum_(k < n) `|a k * b k| <= n%:R * ((1 + p) * (1 + q)).
  apply: (@le_trans _ _ (\sum_(k < n) ((1 + p) * (1 + q)))); last by rewrite sumr_const card_ord mulr_natl.
  by apply: ler_sum => k _; have [] := @prod_close (a k) (b k) (a0 k) (b0 k) (a1 _ _) (b1 _ _) (ha _ _) (hb _ _).
apply: (@le_trans _ _ ((U - 1) * (n%:R * ((1 + p) * (1 + q))) + n%:R * ((1 + p) * (1 + q) - 1))).
  by apply: ler_add => //; apply: le_trans hz _; apply: ler_wpmul2l => //; rewrite subr_ge0.
rewrite le_eqVlt; apply/orP; left; apply/eqP; move: (n%:R) => c; ring.
Qed.

End Prod.

Section Mul.
Variables (R : rcfType) (u : R).
Notation C := (ComplexField.complex_numFieldType R).
Notation mat := (seq (seq C)).
Hypothesis u0 : 0 <= u.
Variable f_dot : seq C -> seq C -> C.
Hypothesis accD : accurate_dot (u%:C)%C f_dot.

Lemma fl_matmul_ok r k c (P Q : mat) : is_rect r k P -> is_rect k c Q -> (0 < k)%N ->
  exists Y, [/\ fl_matmul f_dot P Q = Ok Y, is_rect r c Y &
    forall i j : nat, (i < r)%N -> (j < c)%N ->
    `|ent Y i j - \sum_(l < k) ent P i l * ent Q l j| <=
      (((1 + u) ^+ k.+1)%:C%C - 1) * \sum_(l < k) `|ent P i l * ent Q l j|].
Proof.
move=> rP rQ k0; have /andP[/eqP sP /allP aP] := rP; have /andP[/eqP sQ _] := rQ.
rewrite /fl_matmul sQ (rect_cols rQ k0).
have -> : all (fun row => size row == k) P by apply/allP.
eexists; split; first by reflexivity.
  rewrite /is_rect size_map sP eqxx; apply/allP => row /mapP[x _ ->].
  by rewrite size_map size_iota.
move=> i j il jl; rewrite (ent_rows [::]) ?sP // (nth_map 0%N) ?size_iota // nth_iota // add0n.
set y := [seq _ | k <- _].
have sx := rect_row rP il.
have := @accD (nth [::] P i) y; rewrite size_map size_iota sx => /(_ erefl).
have yE (l : 'I_k) : y`_l = ent Q l j by rewrite /y (nth_map 0%N) ?size_iota // nth_iota.
under eq_bigr do rewrite yE.
under [X in _ <= _ * X]eq_bigr do rewrite yE.
have -> : ((1 + u) ^+ k.+1)%:C%C = (1 + (u%:C)%C) ^+ k.+1 :> C by rewrite rmorphX rmorphD rmorph1.
by [].
Qed.

Definition mclose r c (d : R) (P Q : 'M[C]_(r, c)) := forall i j, `|P i j - Q i j| <= (d%:C)%C.
Definition msmall r c (P : 'M[C]_(r, c)) := forall i j, `|P i j| <= 1.

Lemma fl_mul_close n (P Q : mat) (P0 Q0 : 'M[C]_n) (p q : R) : (0 < n)%N -> is_rect n n P -> is_rect n n Q ->
  0 <= p -> 0 <= q -> msmall P0 -> msmall Q0 -> mclose p (mxof n n P) P0 -> mclose q (mxof n n Q) Q0 ->
  exists Y, [/\ fl_matmul f_dot P Q = Ok Y, is_rect n n Y & mclose (product_error u n p q) (mxof n n Y) (P0 *m Q0)].
Proof.
move=> n0 rP rQ p0 q0 sP sQ cP cQ; have [Y [-> rY hY]] := fl_matmul_ok rP rQ n0.
exists Y; split=> // i j; have := hY i j (ltn_ord i) (ltn_ord j).
have U1 : 1 <= ((1 + u) ^+ n.+1)%:C%C :> C by rewrite (lecR 1) exprn_ege1 // ler_addl.
pose a0 k := if insub k is Some k' then P0 i k' else 0; pose b0 k := if insub k is Some k' then Q0 k' j else 0.
have aE (k : 'I_n) : a0 k = P0 i k by rewrite /a0 valK.
have bE (k : 'I_n) : b0 k = Q0 k j by rewrite /b0 valK.
have pC : 0 <= (p%:C)%C :> C by rewrite ler0c.
have qC : 0 <= (q%:C)%C :> C by rewrite ler0c.
have eE : ((product_error u n p q)%:C)%C = n%:R * (((1 + u) ^+ n.+1)%:C%C * ((1 + (p%:C)%C) * (1 + (q%:C)%C)) - 1) :> C.
  by rewrite /product_error rmorphM rmorph_nat rmorphB rmorph1 !rmorphM !rmorphD rmorph1.
move=> hz; rewrite eE !mxE.
have -> : \sum_k P0 i k * Q0 k j = \sum_(k < n) a0 k * b0 k by apply: eq_bigr => k _; rewrite aE bE.
apply: (sum_close (a := fun k => ent P i k) (b := fun k => ent Q k j)) => // k kn.
- by have := sP i (Ordinal kn); rewrite -aE.
- by have := sQ (Ordinal kn) j; rewrite -bE.
- by have := cP i (Ordinal kn); rewrite -aE mxE.
- by have := cQ (Ordinal kn) j; rewrite -bE mxE.
Qed.

Lemma product_error_ge0 n p q : 0 <= p -> 0 <= q -> 0 <= product_error u n p q.
Proof.
move=> p0 q0; rewrite mulr_ge0 ?ler0n // subr_ge0 !mulp_ge1 ?ler_addl // exprn_ege1 // ler_addl.
by [].
Qed.

Lemma mclose_block m d (P Q S T P0 Q0 S0 T0 : 'M[C]_m) : mclose d P P0 -> mclose d Q Q0 -> mclose d S S0 -> mclose d T T0 ->
  mclose d (block_mx P Q S T) (block_mx P0 Q0 S0 T0).
Proof.
by move=> a b c e i j; rewrite -(splitK i) -(splitK j); case: (split i) => i'; case: (split j) => j' /=;
  rewrite ?block_mxEul ?block_mxEur ?block_mxEdl ?block_mxEdr.
Qed.

Lemma msmall_block m (P Q S T : 'M[C]_m) : msmall P -> msmall Q -> msmall S -> msmall T -> msmall (block_mx P Q S T).
Proof.
by move=> a b c e i j; rewrite -(splitK i) -(splitK j); case: (split i) => i'; case: (split j) => j' /=;
  rewrite ?block_mxEul ?block_mxEur ?block_mxEdl ?block_mxEdr.
Qed.

Lemma mclose_refl m d (P : 'M[C]_m) : 0 <= d -> mclose d P P.
Proof. by move=> d0 i j; rewrite subrr normr0 ler0c. Qed.

Lemma msmall0 m : msmall (0 : 'M[C]_m). Proof. by move=> i j; rewrite mxE normr0 ler01. Qed.
Lemma msmall1 m : msmall (1%:M : 'M[C]_m).
Proof. by move=> i j; rewrite mxE normr_nat lern1 leq_b1. Qed.

Lemma normC (x : R) : `|(x%:C)%C : C| = (`|x|%:C)%C.
Proof. by rewrite normc_def /= expr0n addr0 sqrtr_sqr. Qed.

Lemma mclose_rdiag m d (x y : 'I_m -> R) : 0 <= d -> (forall i, `|x i - y i| <= d) -> mclose d (rdiag x) (rdiag y).
Proof.
move=> d0 h i j; rewrite !mxE; have [->|ne] := eqVneq i j; last by rewrite !mulr0n subrr normr0 ler0c.
by rewrite !mulr1n -rmorphB normC lecR.
Qed.

Lemma msmall_rdiag m (x : 'I_m -> R) : (forall i, `|x i| <= 1) -> msmall (rdiag x).
Proof.
move=> h i j; rewrite !mxE; have [->|ne] := eqVneq i j; last by rewrite mulr0n normr0 ler01.
by rewrite mulr1n normC (lecR _ 1).
Qed.

Lemma msmall_mul_rdiag m (V : 'M[C]_m) (x : 'I_m -> R) : msmall V -> (forall i, `|x i| <= 1) -> msmall (V *m rdiag x).
Proof.
move=> sV h i j; rewrite mul_mx_diag !mxE normrM -[X in _ <= X]mulr1; apply: ler_pmul => //.
by rewrite normC (lecR _ 1).
Qed.

End Mul.
