(* Rounding errors of matrix products and of the expanded matrix. *)
From mathcomp Require Import all_ssreflect all_algebra complex.
From mathcomp Require Import ring zify.
From Verif Require Import Base SpecStates SpecPerm SpecBS BsNorm ModelStates ModelPerm ModelDist SpecProb ModelGcc ModelGccB
  ModelNet SpecNet ProofNet1 ProofNet2 ProofNet3 ModelFloat SpecFloat ProofFloat ProofFloat4 ProofFloatDist2
  ModelFloatNet SpecFloatNet.
Set Implicit Arguments.
Unset Strict Implicit.
Unset Printing Implicit Defensive.
Import Order.TTheory GRing.Theory Num.Theory.
Local Open Scope ring_scope.
Local Open Scope py_scope.

Section Real.
Variables (R : rcfType) (u d : R).
Hypotheses (u0 : 0 <= u) (d0 : 0 <= d).

(* (1 + a) is a bound for the relative size of a perturbed product *)
Lemma mulp_ge1 (a b : R) : 1 <= a -> 1 <= b -> 1 <= a * b.
Proof. by move=> a1 b1; rewrite -[1]mulr1; apply: ler_pmul. Qed.

Lemma loss_sv_error_ge0 : 0 <= loss_sv_error u d.
Proof. by rewrite subr_ge0 mulp_ge1 // exprn_ege1 // ler_addl. Qed.

Lemma square_sv_error_ge0 : 0 <= square_sv_error u d.
Proof. by rewrite subr_ge0 mulp_ge1 // exprn_ege1 // ler_addl. Qed.

Lemma loss_root_error_ge : d <= loss_root_error u d.
Proof.
have h : d <= Num.sqrt (loss_sv_error u d).
  rewrite -[X in X <= _](ger0_norm d0) -[X in X <= _]sqrtr_sqr; apply: ler_wsqrtr; rewrite /loss_sv_error.
  apply: (@le_trans _ _ ((1 + d) ^+ 2 - 1)); first by rewrite -subr_ge0 (_ : (1 + d) ^+ 2 - 1 - d ^+ 2 = d + d); [rewrite addr_ge0|ring].
  apply: ler_sub => //;  apply: ler_pemull; first exact: sqr_ge0.
  by rewrite exprn_ege1 // ler_addl.
apply: le_trans h _; rewrite /loss_root_error ler_subr_addl; apply: (@le_trans _ _ (1 * (1 + Num.sqrt (loss_sv_error u d)))).
  by rewrite mul1r.
by rewrite ler_wpmul2r ?addr_ge0 ?ler01 ?sqrtr_ge0 // ler_addl.
Qed.

Lemma loss_root_error_ge0 : 0 <= loss_root_error u d.
Proof. exact: le_trans d0 loss_root_error_ge. Qed.

Lemma sqrt_close (x y g : R) : 0 <= x -> 0 <= y -> `|x - y| <= g -> `|Num.sqrt x - Num.sqrt y| <= Num.sqrt g.
Proof.
move=> x0 y0 h.
wlog le : x y x0 y0 h / y <= x.
  move=> W; case: (leP y x) => [|/ltW] le; first exact: W.
  by rewrite distrC; apply: W => //; rewrite distrC.
have g0 : 0 <= g by apply: le_trans h.
rewrite ger0_norm ?subr_ge0 ?ler_wsqrtr // ler_subl_addl.
rewrite -[X in X <= _]ger0_norm ?sqrtr_ge0 // -[X in _ <= X]ger0_norm ?addr_ge0 ?sqrtr_ge0 //.
rewrite -ler_sqr ?nnegrE ?normr_ge0 // !real_normK ?num_real // sqrrD !sqr_sqrtr //.
have := h; rewrite ger0_norm ?subr_ge0 // ler_subl_addl => h'.
apply: le_trans h' _; rewrite -addrA [_ *+ 2 + g]addrC addrA ler_addl mulrn_wge0 // mulr_ge0 ?sqrtr_ge0 //.
Qed.

Variables (B : arith R) (f_sqrt : R -> R).
Hypothesis accB : accurate u B.
Hypothesis acc_sqrt : accurate_sqrt u f_sqrt.
Variables x x0 : R.
Hypotheses (x01 : 0 <= x0 <= 1) (xx : `|x - x0| <= d).

Let x_le : `|x| <= 1 + d.
Proof.
have /andP[a b] := x01; rewrite -[x](subrK x0) addrC; apply: le_trans (ler_norm_add _ _) _.
by apply: ler_add => //; rewrite ger0_norm.
Qed.

Lemma square_sv : `|f_pow B x 2 - x0 ^+ 2| <= square_sv_error u d.
Proof.
have /andP[a b] := x01.
apply: le_trans (ler_dist_add (x ^+ 2) _ _) _.
have h1 : `|f_pow B x 2 - x ^+ 2| <= ((1 + u) ^+ 2 - 1) * (1 + d) ^+ 2.
  apply: le_trans (acc_pow accB x 2) _; apply: ler_wpmul2l; first by rewrite E0.
  by rewrite normrX ler_expn2r ?nnegrE ?normr_ge0 ?addr_ge0 ?ler01.
have h2 : `|x ^+ 2 - x0 ^+ 2| <= (1 + d) ^+ 2 - 1.
  rewrite subr_sqr normrM; have -> : (1 + d) ^+ 2 - 1 = d * (2%:R + d) by ring.
  apply: ler_pmul => //; apply: le_trans (ler_norm_add _ _) _.
  have -> : 2%:R + d = (1 + d) + 1 by ring.
  by apply: ler_add => //; rewrite ger0_norm.
apply: le_trans (ler_add h1 h2) _; rewrite le_eqVlt; apply/orP; left; apply/eqP.
by rewrite /square_sv_error; ring.
Qed.

Lemma loss_sv y : y = f_sub B 1 (f_pow B x 2) ->
  `|(if y < 0 then 0 else y) - (1 - x0 ^+ 2)| <= loss_sv_error u d.
Proof.
move=> ey; have /andP[a b] := x01; have p0 : 0 <= 1 - x0 ^+ 2 by rewrite subr_ge0 expr_le1.
have p1 : 1 - x0 ^+ 2 <= 1 by rewrite ler_subl_addl ler_addr sqr_ge0.
have sq := square_sv.
have h : `|y - (1 - x0 ^+ 2)| <= loss_sv_error u d.
  apply: le_trans (ler_dist_add (1 - f_pow B x 2) _ _) _.
  have h2 : `|1 - f_pow B x 2 - (1 - x0 ^+ 2)| <= square_sv_error u d.
    by rewrite (_ : 1 - f_pow B x 2 - (1 - x0 ^+ 2) = - (f_pow B x 2 - x0 ^+ 2)) ?normrN //; ring.
  have h1 : `|1 - f_pow B x 2| <= 1 + square_sv_error u d.
    rewrite -[1 - f_pow B x 2](subrK (1 - x0 ^+ 2)) addrC; apply: le_trans (ler_norm_add _ _) _.
    by apply: ler_add => //; rewrite ger0_norm.
  apply: (@le_trans _ _ (u * (1 + square_sv_error u d) + square_sv_error u d)).
    by apply: ler_add => //; rewrite ey; apply: le_trans (acc_sub accB _ _) _; apply: ler_wpmul2l.
  rewrite le_eqVlt; apply/orP; left; apply/eqP; rewrite /square_sv_error /loss_sv_error; ring.
case: ifP => // y0; apply: le_trans h; rewrite sub0r normrN ger0_norm // distrC ger0_norm.
  by rewrite ler_addl oppr_ge0 ltW.
by rewrite subr_ge0; apply: le_trans p0; apply: ltW.
Qed.

Lemma loss_root y : y = f_sub B 1 (f_pow B x 2) ->
  `|f_sqrt (if y < 0 then 0 else y) - Num.sqrt (1 - x0 ^+ 2)| <= loss_root_error u d.
Proof.
move=> ey; have := loss_sv ey; set z := (if _ then _ else _) => h.
have z0 : 0 <= z by rewrite /z; case: ltP.
have /andP[a b] := x01; have p0 : 0 <= 1 - x0 ^+ 2 by rewrite subr_ge0 expr_le1.
have p1 : 1 - x0 ^+ 2 <= 1 by rewrite ler_subl_addl ler_addr sqr_ge0.
have h1 := sqrt_close z0 p0 h.
have s1 : Num.sqrt (1 - x0 ^+ 2) <= 1 by rewrite -[X in _ <= X](sqrtr1 R); apply: ler_wsqrtr.
have h2 : Num.sqrt z <= 1 + Num.sqrt (loss_sv_error u d).
  rewrite -(ger0_norm (sqrtr_ge0 z)) -[Num.sqrt z](subrK (Num.sqrt (1 - x0 ^+ 2))) addrC.
  by apply: le_trans (ler_norm_add _ _) _; apply: ler_add => //; rewrite ger0_norm ?sqrtr_ge0.
apply: le_trans (ler_dist_add (Num.sqrt z) _ _) _.
apply: (@le_trans _ _ (u * (1 + Num.sqrt (loss_sv_error u d)) + Num.sqrt (loss_sv_error u d))).
  by apply: ler_add => //; apply: le_trans (acc_sqrt z0) _; apply: ler_wpmul2l.
rewrite le_eqVlt; apply/orP; left; apply/eqP; rewrite /loss_root_error; move: (Num.sqrt _) => q; ring.
Qed.

End Real.
