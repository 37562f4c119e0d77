(* The strategy for different losses in rounded arithmetic: exact decompositions are stable. *)
From mathcomp Require Import all_ssreflect all_algebra complex.
From mathcomp Require Import ring zify.
From Verif Require Import Base SpecStates Combi SpecPerm PermMath SpecBS BsMath BsComb BsNorm SpecProb ProbMath ModelStates ProofStates1 ModelPerm ModelDist ModelGcc ModelGccB ProofGcc3 ProofSel SpecGcc LemGcc ModelNet SpecNet LemNet ProofGccB2
  ProofNet1 ProofNet2 ProofNet3 ProofNet4 ProofNet5 ProofNet7 ProofThin ModelBobs SpecBobs ProofBobs1 ProofBobs2 ProofBobs3 ProofBobs4 ProofBobs5 ProofPert3.
From Verif Require ProofMat ProofLim5.
From Verif Require Import ModelFloat SpecFloat ModelFloatGcc ModelFloatGccB SpecFloatSub SpecFloatGcc SpecFloatGccB ProofFloat ProofFloat4 ProofFloatSel ProofFloatGcc2 ProofFloatDist2 ProofFloatGccB2 ProofFloatGccB3 ModelFloatNet SpecFloatNet
  ProofFloatNet1 ProofFloatNet2 ProofFloatNet3 ProofFloatNet4 ProofFloatNet5
  SpecFloatFixed ProofFloatFixed1 ProofFloatFixed2 ProofFloatFixed3 ModelFloatLState SpecFloatLState ProofFloatLState1 ProofFloatLState2 ProofFloatLState4 ModelFloatBobs SpecFloatBobs ProofFloatBobs1 ProofFloatBobs2 ProofFloatBobs3 ProofFloatBobs4 ProofFloatBobs5 ProofFloatBobs6.
Set Implicit Arguments.
Unset Strict Implicit.
Unset Printing Implicit Defensive.
Import Order.TTheory GRing.Theory Num.Theory.
Local Open Scope ring_scope.
Local Open Scope py_scope.

Section Stable.
Variable R : rcfType.
Notation C := (ComplexField.complex_numFieldType R).
Notation mat := (seq (seq C)).

Lemma nsq_add (t : R) (a b : C) : 0 < t -> nsq (a + b) <= (1 + t) * nsq a + (1 + t^-1) * nsq b.
Proof.
move=> t0; have h (x y : R) : (x + y) ^+ 2 <= (1 + t) * x ^+ 2 + (1 + t^-1) * y ^+ 2.
  rewrite -subr_ge0 (_ : _ - _ = t * (x - y / t) ^+ 2); first by rewrite mulr_ge0 ?sqr_ge0 ?ltW.
  by field; rewrite gt_eqF.
case: a b => a b [c d]; rewrite /nsq; simpc => /=.
by apply: le_trans (ler_add (h a c) (h b d)) _; rewrite !mulrDr addrACA.
Qed.

Lemma norm_nsq (z : C) (e : R) : 0 <= e -> `|z| <= (e%:C)%C -> nsq z <= e ^+ 2.
Proof.
move=> e0; rewrite normc_def lecR => h.
have := h; rewrite -(@ler_pexpn2r _ 2) ?nnegrE ?sqrtr_ge0 // sqr_sqrtr //.
by rewrite addr_ge0 ?sqr_ge0.
Qed.

Variables (m : nat) (Y X : mat) (e : R).
Hypotheses (e0 : 0 <= e) (su : subunitary m X) (cl : close m e Y X).
Notation t := (m%:R * e).

Lemma close_image v : vec_norm m v = 1 -> image_norm m Y v <= (1 + t) ^+ 2.
Proof.
move=> v1; have [_ h] := su; have hX : image_norm m X v <= 1 by apply: le_trans (h v) _; rewrite -/(vec_norm m v) v1.
have t0 : 0 <= t by rewrite mulr_ge0 ?ler0n.
pose E i := \sum_(j < m) (ent Y i j - ent X i j) * v j.
have YE i : \sum_(j < m) ent Y i j * v j = \sum_(j < m) ent X i j * v j + E i.
  by rewrite /E -big_split /=; apply: eq_bigr => j _; rewrite -mulrDl addrC subrK.
have hE : \sum_(i < m) nsq (E i) <= t ^+ 2.
  apply: (@le_trans _ _ (\sum_(i < m) m%:R * e ^+ 2)).
    apply: ler_sum => i _; apply: le_trans (ProofMat.nsq_cs _ _) _.
    rewrite -[\sum_(j < m) nsq (v j)]/(vec_norm m v) v1 mulr1.
    apply: (@le_trans _ _ (\sum_(j < m) e ^+ 2)); last by rewrite sumr_const card_ord mulr_natl.
    by apply: ler_sum => j _; apply: norm_nsq => //; apply: cl.
  rewrite sumr_const card_ord -mulr_natl exprMn expr2 mulrA; exact: lexx.
have [z|nz] := eqVneq t 0.
  have E0 (i : 'I_m) : E i = 0.
    apply/eqP; rewrite -nsq_eq0 eq_le nsq_ge0 andbT; move: hE; rewrite z expr0n /=; apply: le_trans.
    by rewrite (bigD1 i) //= ler_addl sumr_ge0 // => a _; exact: nsq_ge0.
  rewrite z addr0 expr1n; apply: le_trans hX; rewrite le_eqVlt; apply/orP; left; apply/eqP.
  by apply: eq_bigr => i _; rewrite YE E0 addr0.
have tp : 0 < t by rewrite lt0r nz.
apply: (@le_trans _ _ (\sum_(i < m) ((1 + t) * nsq (\sum_(j < m) ent X i j * v j) + (1 + t^-1) * nsq (E i)))).
  by apply: ler_sum => i _; rewrite YE; apply: nsq_add.
rewrite big_split /= -!mulr_sumr.
apply: (@le_trans _ _ ((1 + t) * 1 + (1 + t^-1) * t ^+ 2)).
  by apply: ler_add; apply: ler_wpmul2l => //; rewrite addr_ge0 ?ler01 ?invr_ge0.
move: nz; generalize t => x nz; rewrite (_ : _ + _ = (1 + x) ^+ 2) //; field; exact: nz.
Qed.

Variables (V U : mat) (s : seq R).
Hypotheses (m0 : (0 < m)%N) (isv : is_svd m Y V s U).

Definition cut_sv : seq R := [seq Num.min x 1 | x <- s].
Definition cut_net : mat := [seq [seq \sum_(k < m) ent V i k * (cut_sv`_k)%:C%C * ent U k j | j <- iota 0 m] | i <- iota 0 m].

Lemma top_sv i : (i < m)%N -> 0 <= s`_i <= 1 + t.
Proof.
have t0 : 0 <= t by rewrite mulr_ge0 ?ler0n.
move=> im; case: (isv) => _ _ ss [so /allP s0] _; rewrite s0 ?mem_nth ?ss //=.
apply: (@le_trans _ _ s`_0); first by apply: sorted_top; rewrite ?ss.
have [_ [v [v1 ev]]] := svd_top m0 isv.
have := close_image v1; rewrite ev ler_pexpn2r // nnegrE; first by rewrite s0 ?mem_nth ?ss.
by rewrite addr_ge0 ?ler01.
Qed.

Lemma cut_svE i : (i < m)%N -> cut_sv`_i = Num.min s`_i 1.
Proof. by move=> im; case: isv => _ _ ss _ _; rewrite (nth_map 0) ?ss. Qed.

Lemma cut_dist i : (i < m)%N -> `|s`_i - cut_sv`_i| <= t.
Proof.
have t0 : 0 <= t by rewrite mulr_ge0 ?ler0n.
move=> im; have /andP[a b] := top_sv im; rewrite cut_svE //; case: (leP s`_i 1) => h.
  by rewrite subrr normr0.
by rewrite ger0_norm; [rewrite ler_subl_addl|rewrite subr_ge0 ltW].
Qed.

Lemma cut_is_svd : is_svd m cut_net V cut_sv U.
Proof.
case: (isv) => uV uU ss [so /allP s0] _; split=> //.
- by rewrite size_map.
- split; last by apply/allP=> _ /mapP[x xs ->]; rewrite le_minr s0 ?ler01.
  rewrite sorted_map; apply: sub_sorted so => x y /= yx.
  by rewrite le_minr !le_minl yx lexx !orbT.
by move=> i j il jl; rewrite ent_tab.
Qed.

Lemma cut_subunitary : subunitary m cut_net.
Proof.
split; first exact: rect_tab.
move=> v; have [top _] := svd_top m0 cut_is_svd; apply: le_trans (top v) _.
rewrite -[X in _ <= X]mul1r; apply: ler_wpmul2r.
  by apply: sumr_ge0 => i _; exact: nsq_ge0.
have /andP[a _] := top_sv m0; rewrite cut_svE // expr_le1 ?le_minr ?a ?ler01 //.
by rewrite le_minl lexx orbT.
Qed.

Lemma cut_close : close m (m%:R * t) Y cut_net.
Proof.
move=> i j il jl; case: (isv) => uV uU ss _ eY; rewrite eY // ent_tab // -sumrB.
apply: le_trans (ler_norm_sum _ _ _) _.
apply: (@le_trans _ _ (\sum_(k < m) (t%:C)%C)); last first.
  rewrite sumr_const card_ord (_ : ((m%:R * t)%:C)%C = (t%:C)%C *+ m) //.
  by rewrite [m%:R * t]mulr_natl rmorphMn.
apply: ler_sum => k _; rewrite -mulrBl -mulrBr -rmorphB !normrM normC.
have a := unitary_entries uV il (ltn_ord k); have b := unitary_entries uU (ltn_ord k) jl.
have d : (`|s`_k - cut_sv`_k|%:C)%C <= (t%:C)%C :> C by rewrite lecR cut_dist.
have d0 : 0 <= (`|s`_k - cut_sv`_k|%:C)%C :> C by rewrite ler0c.
rewrite -[X in _ <= X]mulr1; apply: ler_pmul => //; first by rewrite mulr_ge0.
by rewrite -[X in _ <= X]mul1r; apply: ler_pmul.
Qed.
End Stable.

Lemma close_trans (R : rcfType) m (a b : R) (P Q S : seq (seq (ComplexField.complex_numFieldType R))) :
  close m a P Q -> close m b Q S -> close m (a + b) P S.
Proof.
move=> h1 h2 i j il jl; apply: le_trans (ler_dist_add (ent Q i j) _ _) _.
by rewrite rmorphD; apply: ler_add; [apply: h1|apply: h2].
Qed.

Lemma svd_stable (R : rcfType) svd m (b d e : R) : backward_svd svd m b d -> (0 < m)%N -> 0 <= b -> 0 <= d -> 0 <= e ->
  stable_svd svd m e (d + m%:R * (e + b)) (b + m%:R * (m%:R * (e + b))).
Proof.
move=> ok m0 b0 d0 e0 Y X sq su cl; have [V [s [U [Y1 [es sq1 cY ns]]]]] := ok Y sq.
have eb0 : 0 <= e + b by rewrite addr_ge0.
have cl1 : close m (e + b) Y1 X.
  rewrite addrC; apply: close_trans cl => i j il jl; rewrite distrC; exact: cY.
have t0 : 0 <= m%:R * (e + b) by rewrite mulr_ge0 ?ler0n.
have wide (P Q : seq (seq (ComplexField.complex_numFieldType R))) : close m d P Q -> close m (d + m%:R * (e + b)) P Q.
  by move=> h i j il jl; apply: le_trans (h i j il jl) _; rewrite lecR ler_addl.
case: ns => sqV sqU ss [V0 [s0 [U0 [isv cV cU cs]]]].
exists V, s, U, (cut_net m V0 U0 s0); split=> //.
- split=> //; exists V0, (cut_sv s0), U0; split=> //; [exact: (cut_is_svd isv)|exact: wide|exact: wide|].
  move=> i im; apply: le_trans (ler_dist_add s0`_i _ _) _; apply: ler_add; first exact: cs.
  exact: (cut_dist eb0 su cl1 m0 isv im).
- exact: (cut_subunitary eb0 su cl1 m0 isv).
apply: close_trans cY _; exact: (cut_close eb0 su cl1 m0 isv).
Qed.

Lemma exact_backward (R : rcfType) (svd : seq (seq (ComplexField.complex_numFieldType R)) -> _) m : svd_ok svd -> (0 < m)%N -> backward_svd svd m 0 0.
Proof.
move=> ok m0 Y sq; have [V [s [U [es isv]]]] := ok m Y m0 sq.
have cr (P : seq (seq (ComplexField.complex_numFieldType R))) : close m 0 P P by move=> i j _ _; rewrite subrr normr0.
exists V, s, U, Y; split=> //.
case: (isv) => [[sqV _] [sqU _] ss _ _]; split=> //; exists V, s, U; split=> // i im.
by rewrite subrr normr0.
Qed.
