(* The strategy for different losses in rounded arithmetic: removing the common losses. *)
From mathcomp Require Import all_ssreflect all_algebra complex.
From mathcomp Require Import ring zify.
From Verif Require Import Base SpecStates Combi SpecPerm PermMath SpecBS BsMath BsComb BsNorm SpecProb ProbMath ModelStates ProofStates1 ModelPerm ModelDist ModelGcc ModelGccB ProofGcc3 ProofSel SpecGcc LemGcc ModelNet SpecNet LemNet ProofGccB2
  ProofNet1 ProofNet2 ProofNet3 ProofNet4 ProofNet5 ProofNet7 ProofThin ModelBobs SpecBobs ProofBobs1 ProofBobs2 ProofBobs3 ProofBobs4 ProofBobs5 ProofPert3.
From Verif Require ProofLim5.
From Verif Require Import ModelFloat SpecFloat ModelFloatGcc ModelFloatGccB SpecFloatSub SpecFloatGcc SpecFloatGccB ProofFloat ProofFloat4 ProofFloatSel ProofFloatGcc2 ProofFloatDist2 ProofFloatGccB2 ProofFloatGccB3 ModelFloatNet SpecFloatNet
  ProofFloatNet1 ProofFloatNet2 ProofFloatNet3 ProofFloatNet4 ProofFloatNet5
  SpecFloatFixed ProofFloatFixed1 ProofFloatFixed2 ProofFloatFixed3 ModelFloatLState SpecFloatLState ProofFloatLState1 ProofFloatLState2 ProofFloatLState4 ModelFloatBobs SpecFloatBobs ProofFloatBobs1 ProofFloatBobs2 ProofFloatBobs3 ProofFloatBobs4 ProofFloatBobs5.
Set Implicit Arguments.
Unset Strict Implicit.
Unset Printing Implicit Defensive.
Import Order.TTheory GRing.Theory Num.Theory.
Local Open Scope ring_scope.
Local Open Scope py_scope.

Section Extract.
Variable R : rcfType.
Notation C := (ComplexField.complex_numFieldType R).
Notation mat := (seq (seq C)).
Variables (u d : R) (B : arith R) (f_sqrt : R -> R) (f_dot : seq C -> seq C -> C).
Variable svd : mat -> res (mat * seq R * mat).
Hypotheses (u0 : 0 <= u) (u8 : u <= 8%:R^-1) (d0 : 0 <= d) (accB : accurate u B) (acc_sqrt : accurate_sqrt u f_sqrt).
Hypothesis accD : accurate_dot (u%:C)%C f_dot.
Variables (m : nat) (M M0 V U : mat) (s : seq R).
Hypotheses (m0 : (0 < m)%N) (eM : svd M = Ok (V, s, U)) (ns : near_svd m d M0 V s U) (su : subunitary m M0).
Variables (t0 : R) (N0 : mat).
Hypothesis cm : common_losses m M0 t0 N0.
Hypothesis small : divisor_error u d <= t0 / 2%:R.

Lemma common_le1 : t0 <= 1.
Proof.
have [_ _ [v [v1 <-]] _] := cm; have [_ h] := su; apply: le_trans (h v) _.
by rewrite -/(vec_norm m v) v1.
Qed.

Lemma fl_extract_ok : exists l Y, [/\ fl_extract_losses B f_sqrt f_dot svd M = Ok (l, Y), is_square m Y,
  `|l - (1 - t0)| <= loss_sv_error u d & close m (extract_error u d t0 m) Y N0].
Proof.
have [t0p top att eN] := cm; have t1 := common_le1.
case: ns => sqV sqU ss [V0 [s0 [U0 [isv cV cU cs]]]].
have [so0 ss0] : sorted (fun x y => y <= x) s0 /\ size s0 = m by case: isv => _ _ -> [].
have s00 i : (i < m)%N -> 0 <= s0`_i.
  by move=> im; case: isv => _ _ e [_ /allP H] _; apply: H; rewrite mem_nth ?e.
have s01 i : (i < m)%N -> 0 <= s0`_i <= 1 by move=> im; rewrite s00 // (subunitary_svd su isv).
have e0 : s0`_0 ^+ 2 = t0.
  have [top' [v' [v1' e']]] := svd_top m0 isv; have [v [v1 e]] := att.
  apply/eqP; rewrite eq_le; apply/andP; split.
    by rewrite -e'; apply: le_trans (top v') _; rewrite v1' mulr1.
  by rewrite -e; apply: le_trans (top' v) _; rewrite v1 mulr1.
have st i : (i < m)%N -> s0`_i ^+ 2 <= t0.
  move=> im; rewrite -e0 ler_expn2r ?nnegrE ?s00 //.
  by apply: sorted_top; rewrite ?ss0.
have sqt : 0 < Num.sqrt t0 by rewrite sqrtr_gt0.
rewrite /fl_extract_losses eM [rbind _ _]/= /=.
set ls := [seq f_sub B 1 t | t <- [seq f_pow B x 2 | x <- s]].
have sls : size ls = m by rewrite /ls !size_map.
have lsE i : (i < m)%N -> `|ls`_i - (1 - s0`_i ^+ 2)| <= loss_sv_error u d.
  move=> im; rewrite /ls (nth_map 0) ?size_map ?ss // (nth_map 0) ?ss //.
  by apply: loss_close; rewrite ?s01 ?cs.
have [l [-> ll]] : exists l, py_min ls = Ok l /\ `|l - (1 - t0)| <= loss_sv_error u d.
  have [/(nthP 0)[i im ei] lo] := foldl_minP (head 0 ls) (behead ls).
  have els : head 0 ls :: behead ls = ls by case: (ls) sls m0 => [|a b] //= <-.
  rewrite els in im ei lo; rewrite sls in im.
  exists (foldl Num.min (head 0 ls) (behead ls)); split; first by case: (ls) els => //.
  rewrite ler_distl; apply/andP; split.
    rewrite -ei; have := lsE i im; rewrite ler_distl => /andP[+ _]; apply: le_trans.
    by rewrite ler_add2r ler_add2l ler_opp2 st.
  have i0 : ls`_0 \in ls by rewrite mem_nth ?sls.
  by apply: le_trans (lo _ i0) _; have := lsE 0%N m0; rewrite ler_distl e0 => /andP[].
rewrite [rbind _ _]/= /=.
have t01 : 0 < t0 <= 1 by rewrite t0p.
pose lo i := f_sqrt (f_fdiv B (f_pow B s`_i 2) (f_sub B 1 l)).
pose h := left_sv_error u d t0.
have hl i : (i < m)%N -> `|lo i - Num.sqrt (s0`_i ^+ 2 / t0)| <= h.
  by move=> im; apply: left_sv; rewrite ?s01 ?st ?cs.
have h0 : 0 <= h by apply: le_trans (hl 0%N m0).
set dg := np_diag _.
have sd : size [seq x%:C%C : C | x <- [seq f_sqrt t | t <- [seq f_fdiv B t (f_sub B 1 l) | t <- [seq f_pow B x 2 | x <- s]]]] = m.
  by rewrite !size_map.
have rD : is_rect m m dg.
  by have := diag_rect [seq x%:C%C : C | x <- [seq f_sqrt t | t <- [seq f_fdiv B t (f_sub B 1 l) | t <- [seq f_pow B x 2 | x <- s]]]]; rewrite sd.
have mD : mxof m m dg = rdiag (fun i : 'I_m => lo i).
  rewrite /dg mxof_diag //; congr diag_mx; apply/rowP=> i; rewrite !mxE.
  by rewrite (nth_map 0) ?size_map ?ss // (nth_map 0) ?size_map ?ss // (nth_map 0) ?size_map ?ss // (nth_map 0) ?ss.
have isvV : msmall (mxof m m V0).
  by move=> i j; rewrite mxE; case: isv => /unitary_entries H *; apply: H.
have isvU : msmall (mxof m m U0).
  by move=> i j; rewrite mxE; case: isv => _ /unitary_entries H *; apply: H.
have n1 (i : 'I_m) : `|Num.sqrt (s0`_i ^+ 2 / t0)| <= 1.
  rewrite ger0_norm ?sqrtr_ge0 // -[X in _ <= X](sqrtr1 R); apply: ler_wsqrtr.
  by rewrite ler_pdivr_mulr // mul1r st.
set S0 := rdiag (fun i : 'I_m => Num.sqrt (s0`_i ^+ 2 / t0)).
have cS : mclose h (mxof m m dg) S0 by rewrite mD; apply: mclose_rdiag => // i; apply: hl.
have cV' : mclose d (mxof m m V) (mxof m m V0) by move=> i j; rewrite !mxE; apply: cV.
have cU' : mclose d (mxof m m U) (mxof m m U0) by move=> i j; rewrite !mxE; apply: cU.
have sS : msmall S0 by exact: msmall_rdiag.
have [P [-> rP cP]] := fl_mul_close u0 accD m0 sqV rD d0 h0 isvV sS cV' cS.
have sP : msmall (mxof m m V0 *m S0) by apply: msmall_mul_rdiag.
have pe0 : 0 <= product_error u m d h by rewrite product_error_ge0.
rewrite [rbind (Ok _) _]/=; have [Q [-> rQ cQ]] := fl_mul_close u0 accD m0 rP sqU pe0 d0 sP isvU cP cU'.
exists l, Q; split=> // i j il jl.
have := cQ (Ordinal il) (Ordinal jl); rewrite !mxofE /=.
suff -> : (mxof m m V0 *m S0 *m mxof m m U0) (Ordinal il) (Ordinal jl) = ent N0 i j by [].
apply: (@mulfI _ (Num.sqrt t0)%:C%C); first by rewrite eq_complex /= eqxx andbT gt_eqF.
rewrite -eN //; have -> : ent M0 i j = (mxof m m M0) (Ordinal il) (Ordinal jl) by rewrite mxE.
rewrite (svd_mx isv) !mxE mulr_sumr; apply: eq_bigr => k _.
rewrite /S0 !mul_mx_diag !mxE mulrA; congr (_ * _); rewrite mulrCA; congr (_ * _).
rewrite -rmorphM; congr (_%:C)%C.
by rewrite -sqrtrM ?ltW // mulrCA divff ?gt_eqF // mulr1 sqrtr_sqr ger0_norm ?s00.
Qed.
End Extract.

Lemma has_exp_retr (R : realFieldType) (T : Type) (f : T -> R) (p : rprog R (res T)) v :
  has_exp (on_ok f) (rpbind p (fun r => Ret (Ok r))) v -> has_exp (on_ok f) p v.
Proof.
rewrite /rpbind; elim: p v => [[a|e]|k IH|n k IH] v /= H //; inversion H; subst.
  by apply: ExpUnif => // i x il xi; apply: IH; auto.
by apply: ExpInt => // i il; apply: IH; auto.
Qed.
