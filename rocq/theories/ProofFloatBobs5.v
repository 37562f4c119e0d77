(* The strategy for different losses in rounded arithmetic: the object. *)
From mathcomp Require Import all_ssreflect all_algebra complex.
From mathcomp Require Import ring zify.
From Verif Require Import Base SpecStates Combi SpecPerm PermMath SpecBS BsMath BsComb BsNorm SpecProb ProbMath ModelStates ProofStates1 ModelPerm ModelDist ModelGcc ModelGccB ProofGcc3 ProofSel SpecGcc LemGcc ModelNet SpecNet LemNet ProofGccB2
  ProofNet1 ProofNet2 ProofNet3 ProofNet4 ProofNet5 ProofNet7 ProofThin ModelBobs SpecBobs ProofBobs1 ProofBobs2 ProofBobs3 ProofBobs4 ProofBobs5 ProofPert3.
From Verif Require ProofLim5.
From Verif Require Import ModelFloat SpecFloat ModelFloatGcc ModelFloatGccB SpecFloatSub SpecFloatGcc SpecFloatGccB ProofFloat ProofFloat4 ProofFloatSel ProofFloatGcc2 ProofFloatDist2 ProofFloatGccB2 ProofFloatGccB3 ModelFloatNet SpecFloatNet
  ProofFloatNet1 ProofFloatNet2 ProofFloatNet3 ProofFloatNet4 ProofFloatNet5
  SpecFloatFixed ProofFloatFixed1 ProofFloatFixed2 ProofFloatFixed3 ModelFloatLState SpecFloatLState ProofFloatLState1 ProofFloatLState2 ProofFloatLState4 ModelFloatBobs SpecFloatBobs ProofFloatBobs1 ProofFloatBobs2 ProofFloatBobs3 ProofFloatBobs4.
Set Implicit Arguments.
Unset Strict Implicit.
Unset Printing Implicit Defensive.
Import Order.TTheory GRing.Theory Num.Theory.
Local Open Scope ring_scope.
Local Open Scope py_scope.

Section Scalars.
Variables (R : rcfType) (u d : R) (B : arith R) (f_sqrt : R -> R).
Hypotheses (u0 : 0 <= u) (u8 : u <= 8%:R^-1) (d0 : 0 <= d) (accB : accurate u B) (acc_sqrt : accurate_sqrt u f_sqrt).
Notation sq := (square_sv_error u d).
Notation ls := (loss_sv_error u d).
Notation h1 := (divisor_error u d).

Lemma u_le1 : u <= 1.
Proof. by apply: le_trans u8 _; rewrite invf_le1 ?ltr0n // ler1n. Qed.

Lemma sq_le_ls : sq <= ls.
Proof.
rewrite ler_add2r; apply: ler_wpmul2r; first by rewrite sqr_ge0.
by rewrite ler_weexpn2l // ler_addl.
Qed.

Lemma ls_le_h1 : ls <= h1.
Proof.
rewrite ler_add2r; apply: ler_wpmul2r; first by rewrite sqr_ge0.
by rewrite ler_weexpn2l // ler_addl.
Qed.

Lemma sub_close (x y e : R) : 0 <= y <= 1 -> `|x - y| <= e -> `|f_sub B 1 x - (1 - y)| <= (1 + u) * (1 + e) - 1.
Proof.
move=> /andP[y0 y1] xy; apply: le_trans (ler_dist_add (1 - x) _ _) _.
have a : `|1 - x - (1 - y)| <= e by rewrite (_ : 1 - x - (1 - y) = - (x - y)) ?normrN //; ring.
have b : `|1 - x| <= 1 + e.
  rewrite -[1 - x](subrK (1 - y)) addrC; apply: le_trans (ler_norm_add _ _) _.
  by apply: ler_add => //; rewrite ger0_norm ?subr_ge0 // ler_subl_addr ler_addl.
apply: (@le_trans _ _ (u * (1 + e) + e)); last by rewrite (_ : u * (1 + e) + e = (1 + u) * (1 + e) - 1) //; ring.
by apply: ler_add => //; apply: le_trans (acc_sub accB _ _) _; apply: ler_wpmul2l.
Qed.

Lemma loss_close (x x0 : R) : 0 <= x0 <= 1 -> `|x - x0| <= d -> `|f_sub B 1 (f_pow B x 2) - (1 - x0 ^+ 2)| <= ls.
Proof.
move=> x01 xx; have /andP[a b] := x01.
have h : 0 <= x0 ^+ 2 <= 1 by rewrite sqr_ge0 expr_le1.
have := sub_close h (square_sv u0 d0 accB x01 xx).
by rewrite (_ : (1 + u) * (1 + sq) - 1 = ls) // /square_sv_error /loss_sv_error; ring.
Qed.

Lemma pow2_ge0 (x : R) : 0 <= f_pow B x 2.
Proof.
have := acc_pow accB x 2; rewrite [`|x ^+ 2|]ger0_norm ?sqr_ge0 // ler_distl => /andP[+ _].
apply: le_trans; rewrite subr_ge0 -[X in _ <= X]mul1r; apply: ler_wpmul2r; first exact: sqr_ge0.
rewrite ler_subl_addr; apply: (@le_trans _ _ (3%:R / 2%:R)); first exact: u2_small.
by rewrite ler_pdivr_mulr ?ltr0n // -[1]/(1%:R) -natrD -natrM ler_nat.
Qed.

Variables (l t0 : R).
Hypotheses (t01 : 0 < t0 <= 1) (ll : `|l - (1 - t0)| <= ls) (small : h1 <= t0 / 2%:R).

Lemma divisor_close : `|f_sub B 1 l - t0| <= h1.
Proof.
have /andP[a b] := t01.
have h : 0 <= 1 - t0 <= 1 by rewrite subr_ge0 b ler_subl_addr ler_addl ltW.
have := sub_close h ll; rewrite subKr.
by rewrite (_ : (1 + u) * (1 + ls) - 1 = h1) // /divisor_error /loss_sv_error; ring.
Qed.

Lemma divisor_ge : t0 / 2%:R <= f_sub B 1 l.
Proof.
have := divisor_close; rewrite ler_distl => /andP[+ _]; apply: le_trans.
rewrite ler_subr_addr; apply: le_trans (ler_add (lexx _) small) _.
by rewrite -mulrDl -mulr2n -mulr_natr mulfK // pnatr_eq0.
Qed.

Lemma left_sv (x x0 : R) : 0 <= x0 <= 1 -> x0 ^+ 2 <= t0 -> `|x - x0| <= d ->
  `|f_sqrt (f_fdiv B (f_pow B x 2) (f_sub B 1 l)) - Num.sqrt (x0 ^+ 2 / t0)| <= left_sv_error u d t0.
Proof.
move=> x01 xt xx; have /andP[tp t1] := t01.
set t := f_pow B x 2; set D := f_sub B 1 l; set z := f_fdiv B t D.
have tge0 : 0 <= t by exact: pow2_ge0.
have Dge : t0 / 2%:R <= D := divisor_ge.
have hp : 0 < t0 / 2%:R by rewrite divr_gt0 // ltr0n.
have Dp : 0 < D by apply: lt_le_trans Dge.
have tq : `|t - x0 ^+ 2| <= h1 := le_trans (square_sv u0 d0 accB x01 xx) (le_trans sq_le_ls ls_le_h1).
have h10 : 0 <= h1 by apply: le_trans tq.
set r := 4%:R * h1 / t0.
have r0 : 0 <= r by rewrite divr_ge0 ?mulr_ge0 ?ler0n // ltW.
have q0 : 0 <= x0 ^+ 2 / t0 by apply: divr_ge0; [exact: sqr_ge0|exact: ltW].
have q1 : x0 ^+ 2 / t0 <= 1 by rewrite ler_pdivr_mulr // mul1r.
have c1 : `|t / D - x0 ^+ 2 / t0| <= r.
  have -> : t / D - x0 ^+ 2 / t0 = ((t - x0 ^+ 2) + (x0 ^+ 2 / t0) * (t0 - D)) / D.
    by field; rewrite !gt_eqF.
  rewrite normrM normfV (gtr0_norm Dp) ler_pdivr_mulr //.
  apply: (@le_trans _ _ (h1 + h1)).
    apply: le_trans (ler_norm_add _ _) _; apply: ler_add => //; rewrite normrM -[X in _ <= X]mul1r.
    apply: ler_pmul; rewrite ?normr_ge0 //; last by rewrite distrC; exact: divisor_close.
    by rewrite ger0_norm.
  apply: le_trans (ler_wpmul2l r0 Dge); rewrite /r.
  by rewrite (_ : 4%:R * h1 / t0 * (t0 / 2%:R) = h1 + h1) //; field; rewrite gt_eqF.
have c2 : `|t / D| <= 1 + r.
  rewrite -[t / D](subrK (x0 ^+ 2 / t0)) addrC; apply: le_trans (ler_norm_add _ _) _.
  by apply: ler_add => //; rewrite ger0_norm.
have az := acc_fdiv accB t (negbT (gt_eqF Dp)).
have c3 : `|z - x0 ^+ 2 / t0| <= ratio_error u d t0.
  apply: le_trans (ler_dist_add (t / D) _ _) _.
  apply: (@le_trans _ _ (u * (1 + r) + r)); last first.
    by rewrite (_ : u * (1 + r) + r = ratio_error u d t0) // /ratio_error -/r; ring.
  by apply: ler_add => //; apply: le_trans az _; apply: ler_wpmul2l.
have z0 : 0 <= z.
  have := az; rewrite [`|t / D|]ger0_norm ?divr_ge0 ?(ltW Dp) // ler_distl => /andP[+ _]; apply: le_trans.
  by rewrite subr_ge0 -[X in _ <= X]mul1r; apply: ler_wpmul2r; rewrite ?divr_ge0 ?(ltW Dp) ?u_le1.
have c4 := sqrt_close z0 q0 c3.
have c5 : Num.sqrt z <= 1 + Num.sqrt (ratio_error u d t0).
  have := c4; rewrite ler_distl => /andP[_ h]; apply: le_trans h _; rewrite ler_add2r.
  by rewrite -[X in _ <= X](@sqrtr1 R); apply: ler_wsqrtr.
apply: le_trans (ler_dist_add (Num.sqrt z) _ _) _.
apply: (@le_trans _ _ (u * (1 + Num.sqrt (ratio_error u d t0)) + Num.sqrt (ratio_error u d t0))); last first.
  by rewrite (_ : _ + _ = left_sv_error u d t0) // /left_sv_error; ring.
by apply: ler_add => //; apply: le_trans (acc_sqrt z0) _; apply: ler_wpmul2l.
Qed.
End Scalars.

Lemma foldl_minP (R : rcfType) (x : R) l : foldl Num.min x l \in x :: l /\ forall y, y \in x :: l -> foldl Num.min x l <= y.
Proof.
elim: l x => [|a l IH] x /=; first by rewrite mem_head; split=> // y; rewrite inE => /eqP ->.
have [h1 h2] := IH (Num.min x a); split.
  move: h1; rewrite !inE => /orP[/eqP ->|->]; last by rewrite !orbT.
  by case: (leP x a) => _; rewrite eqxx ?orbT.
move=> y; rewrite !inE => /or3P[/eqP ->|/eqP ->|yl].
- by apply: le_trans (h2 _ (mem_head _ _)) _; rewrite le_minl lexx.
- by apply: le_trans (h2 _ (mem_head _ _)) _; rewrite le_minl lexx orbT.
by apply: h2; rewrite inE yl orbT.
Qed.
