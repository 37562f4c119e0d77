(* Version A with uniform losses and rounded arithmetic: the values recorded. *)
From mathcomp Require Import all_ssreflect all_algebra complex.
From mathcomp Require Import ring zify.
From Verif Require Import Base SpecStates Combi SpecPerm PermMath SpecBS BsMath BsComb BsNorm.
From Verif Require Import ModelStates ProofStates1 ProofStates4 LemStates ModelPerm ProofPerm6 LemPerm ModelDist ProofDist1
  SpecProb ProbMath ModelGcc ModelGccB SampMath ProofSel ProofGcc1 ProofGcc2 ProofGcc3 ProofGccB2 ProofGcc6
  ModelFloat ModelFloatDist SpecFloat SpecFloatGcc ProofFloat ProofFloat4 ProofFloatDist ProofFloatDist2
  ModelFloatGcc ProofFloatSel ProofFloatGcc1 ProofFloatGcc2 ProofFloatGcc3 ModelFloatGccU SpecFloatGccU.
Set Implicit Arguments.
Unset Strict Implicit.
Unset Printing Implicit Defensive.
Import Order.TTheory GRing.Theory Num.Theory.
Local Open Scope ring_scope.
Local Open Scope py_scope.

(* the bound is at least as large as each of its parts *)
Lemma product_close (R : rcfType) (u a b e f x y z : R) : 0 <= u -> 0 <= a <= 1 -> 0 <= b <= 1 ->
  `|x - a| <= e -> `|y - b| <= f -> `|z - x * y| <= u * `|x * y| ->
  `|z - a * b| <= (1 + u) * ((1 + e) * (1 + f)) - 1.
Proof.
move=> u0 /andP[a0 a1] /andP[b0 b1] xe yf zu.
have e0 : 0 <= e := le_trans (normr_ge0 _) xe; have f0 : 0 <= f := le_trans (normr_ge0 _) yf.
have xy : `|x * y - a * b| <= (1 + e) * (1 + f) - 1.
  have -> : x * y - a * b = (x - a) * (y - b) + (x - a) * b + a * (y - b) by ring.
  have -> : (1 + e) * (1 + f) - 1 = e * f + e + f by ring.
  apply: le_trans (ler_norm_add _ _) _; apply: ler_add.
    apply: le_trans (ler_norm_add _ _) _; rewrite !normrM (ger0_norm b0); apply: ler_add; first exact: ler_pmul.
    by rewrite -[X in _ <= X]mulr1; apply: ler_pmul.
  by rewrite normrM (ger0_norm a0) -[X in _ <= X]mul1r; apply: ler_pmul.
have n1 : `|x * y| <= (1 + e) * (1 + f).
  rewrite -[x * y](subrK (a * b)); apply: le_trans (ler_norm_add _ _) _.
  rewrite -[X in _ <= X](subrK 1); apply: ler_add => //.
  by rewrite ger0_norm ?mulr_ge0 // -[X in _ <= X]mulr1; apply: ler_pmul.
apply: le_trans (ler_dist_add (x * y) _ _) _; apply: le_trans (ler_add zu xy) _.
have -> : (1 + u) * ((1 + e) * (1 + f)) - 1 = u * ((1 + e) * (1 + f)) + ((1 + e) * (1 + f) - 1) by ring.
by apply: ler_add => //; apply: ler_wpmul2l.
Qed.

Section W.
Variable R : rcfType.
Variables (u : R) (B : arith R).
Hypothesis u0 : 0 <= u.
Hypothesis accB : accurate u B.
Variables (n : nat) (eta : R).
Hypothesis eta01 : 0 <= eta <= 1.

Lemma size_bw : size (fl_bin_weights B n eta) = n.+1. Proof. by rewrite size_map size_iota. Qed.

Lemma fl_bin_weights_near l : (l <= n)%N ->
  `|(fl_bin_weights B n eta)`_l - binomial_weight n eta l| <= bin_weight_error u n.
Proof.
move=> ln; rewrite (nth_map 0%N) ?size_iota // nth_iota // add0n.
have /andP[e0 e1] := eta01.
have h0 : 0 <= 1 - eta by rewrite subr_ge0.
have n1 : near u 0 eta eta eta by apply: near_exact => //; rewrite ger0_norm.
have n2 : near u 1 (1 - eta) (1 - eta) (f_sub B 1 eta).
  have n0 : near u 0 (1 - eta) (1 - eta) (1 - eta) by apply: near_exact => //; rewrite ger0_norm.
  by apply: near_round1 n0 _ => //; apply: acc_sub.
have n3 := near_int u0 accB (Posz 'C(n, l)).
have n4 := near_mul u0 accB (near_mul u0 accB (near_pow u0 accB l n1) n3) (near_pow u0 accB (n - l) n2).
have [_] := n4.
rewrite -pmulrn normr_nat -/(binomial_weight n eta l).
have -> : eta ^+ l * 'C(n, l)%:R * (1 - eta) ^+ (n - l) = binomial_weight n eta l.
  by rewrite /binomial_weight [eta ^+ l * _]mulrC.
move=> h; apply: le_trans h _.
have b1 : 0 <= binomial_weight n eta l <= 1.
  have [nn sm] := bw_distr eta01 n; have mem : binomial_weight n eta l \in [seq binomial_weight n eta l | l <- iota 0 n.+1].
    by apply: map_f; rewrite mem_iota.
  move: nn sm mem; move: [seq _ | _ <- _] => W nn <- mem; rewrite (allP nn) //= (big_rem _ mem) ler_addl.
  by rewrite big_seq_cond sumr_ge0 // => y /andP[yW _]; exact: (allP nn _ (seq.mem_rem yW)).
case/andP: b1 => b0 b1; rewrite -[X in _ <= X]mulr1; apply: ler_pmul => //; first exact: E0.
rewrite ler_add2r; apply: E_le => //; lia.
Qed.

End W.

Section Rec.
Variable R : rcfType.
Variables (u : R) (B : arith R).
Hypothesis u0 : 0 <= u.
Hypothesis accB : accurate u B.
Variable m : nat.

Lemma fl_recorded_near t p (q d : R) : size t = m -> 0 <= p -> `|p - q| <= d ->
  0 <= q * (sumn t)`!%:R / (factprod t)%:R <= 1 ->
  `|fl_recorded B t p - q * (sumn t)`!%:R / (factprod t)%:R| <= (1 + u) ^+ (m + 2) * (1 + (sumn t)`!%:R * d) - 1.
Proof.
move=> st p0 pd /andP[q0 q1]; have d0 : 0 <= d := le_trans (normr_ge0 _) pd.
have n1 : near u 0 p p p by apply: near_exact => //; rewrite ger0_norm.
have := fl_foldl_div u0 accB t (near_mul u0 accB n1 (near_int u0 accB (Posz (sumn t)`!))).
rewrite -/(fl_recorded B t p) -pmulrn normr_nat st => -[_].
set K := (_ + m)%N; have -> : (m + 2)%N = K by rewrite /K; lia.
set f := (sumn t)`!%:R : R; set g := (factprod t)%:R : R => h.
have g1 : 1 <= g by have := @factprod_gt0 R t; rewrite ltr0n ler1n.
have f0 : 0 <= f by exact: ler0n.
have g0 : 0 < g := lt_le_trans ltr01 g1.
set v := fl_recorded B t p in h *; set y := (1 + u) ^+ K in h *.
have y1 : 1 <= y := E1 u0 K.
have c : f / g <= f by rewrite -[X in _ <= X]mulr1; apply: ler_wpmul2l => //; rewrite invf_le1.
have c0 : 0 <= f / g by rewrite divr_ge0 // ltW.
have e1 : `|p * f / g - q * f / g| <= f * d.
  rewrite -!mulrA -mulrBl normrM (ger0_norm c0) mulrC; apply: ler_pmul => //.
have e2 : p * f / g <= 1 + f * d.
  rewrite -[X in X <= _](subrK (q * f / g)) addrC; apply: ler_add => //.
  exact: le_trans (ler_norm _) e1.
apply: le_trans (ler_dist_add (p * f / g) _ _) _; apply: le_trans (ler_add h e1) _.
have -> : y * (1 + f * d) - 1 = (y - 1) * (1 + f * d) + f * d by ring.
by rewrite ler_add2r; apply: ler_wpmul2l => //; rewrite subr_ge0.
Qed.

End Rec.
