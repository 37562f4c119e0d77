(* The probabilities of a smeared particle with rounded operations. *)
From mathcomp Require Import all_ssreflect all_algebra complex.
From mathcomp Require Import ring zify.
From Verif Require Import Base SpecStates Combi SpecPerm PermMath SpecBS BsMath BsNorm SpecProb ProbMath ModelStates ModelPerm ModelDist ProofDist1 ProofSel.
From Verif Require Import ModelGcc ModelGccB ModelNet SpecNet LemNet ProofGcc3 ProofGccB1 ProofGccB2 SpecFixed ModelFixed ProofFixed1 ProofFixed2.
From Verif Require Import ModelFloat SpecFloat ProofFloat ProofFloatDist ProofFloatSub ModelFloatNet SpecFloatNet ProofFloatNet2 ProofFloatNet4 ProofFloatNet5 ProofFloatGcc3 ModelFloatFixed SpecFloatFixed.
Set Implicit Arguments.
Unset Strict Implicit.
Unset Printing Implicit Defensive.
Import Order.TTheory GRing.Theory Num.Theory.
Local Open Scope ring_scope.

Lemma amp_close (F : numFieldType) (u c y w a a0 b b0 z : F) : 0 <= u -> 0 <= c -> 1 <= y -> `|a0| <= 1 ->
  `|a - a0| <= c -> `|b0| <= w -> `|b - b0| <= (y - 1) * w -> `|z - a * b| <= u * `|a * b| ->
  `|z - a0 * b0| <= ((1 + u) * (y * (1 + c)) - 1) * w.
Proof.
move=> u0 c0 y1 a1 ac bw by_ zu.
have w0 : 0 <= w := le_trans (normr_ge0 _) bw.
have bn : `|b| <= y * w.
  rewrite -[b](subrK b0); apply: le_trans (ler_norm_add _ _) _; apply: le_trans (ler_add by_ bw) _.
  by rewrite mulrBl mul1r subrK.
have an : `|a| <= 1 + c.
  by rewrite -[a](subrK a0) addrC; apply: le_trans (ler_norm_add _ _) _; apply: ler_add.
have h1 : `|a * b - a0 * b0| <= (y * (1 + c) - 1) * w.
  have -> : a * b - a0 * b0 = (a - a0) * b + a0 * (b - b0) by ring.
  apply: le_trans (ler_norm_add _ _) _; rewrite !normrM.
  have -> : (y * (1 + c) - 1) * w = c * (y * w) + 1 * ((y - 1) * w) by ring.
  by apply: ler_add; apply: ler_pmul.
have h2 : `|a * b| <= (1 + c) * (y * w) by rewrite normrM; apply: ler_pmul.
apply: le_trans (ler_dist_add (a * b) _ _) _; apply: le_trans (ler_add zu h1) _.
have -> : ((1 + u) * (y * (1 + c)) - 1) * w = u * ((1 + c) * (y * w)) + (y * (1 + c) - 1) * w by ring.
by rewrite ler_add2r ler_wpmul2l.
Qed.

Section State.
Variable R : rcfType.
Notation C := (ComplexField.complex_numFieldType R).
Notation mat := (seq (seq C)).
Variables (u c nu : R) (A : arith C) (B : arith R) (f_sqrt : R -> R) (f_dot : seq C -> seq C -> C) (cis f_cis : R -> C).
Hypotheses (u0 : 0 <= u) (u8 : u <= 8%:R^-1) (c0 : 0 <= c) (nu0 : 0 <= nu).
Hypotheses (accA : accurate (u%:C)%C A) (accB : accurate u B) (acc_sqrt : accurate_sqrt u f_sqrt).
Hypotheses (ok : cis_ok cis) (acc_cis : accurate_cis c cis f_cis).
Variables (m : nat) (M : mat).
Hypotheses (m0 : (0 < m)%N) (sub : subunitary m M).

Lemma u2_small : (1 + u) ^+ 2 <= 3%:R / 2%:R.
Proof.
apply: (@le_trans _ _ ((1 + 8%:R^-1) ^+ 2)).
  by apply: ler_expn2r; rewrite ?nnegrE ?ler_add2l // addr_ge0 ?ler01 // invr_ge0 ler0n.
rewrite -subr_ge0; have -> : 3%:R / 2%:R - (1 + 8%:R^-1) ^+ 2 = 15%:R / 64%:R :> R by field.
by rewrite divr_ge0 ?ler0n.
Qed.

Lemma u_le1 : u <= 1.
Proof. by apply: le_trans u8 _; rewrite invf_le1 ?ltr0n // ler1n. Qed.

Lemma root_near n : (0 < n)%N ->
  `|f_sqrt (f_int B (Posz n)) - Num.sqrt n%:R| <= ((1 + u) ^+ 2 - 1) * `|Num.sqrt n%:R|.
Proof.
move=> n0; set x := f_int B (Posz n); set r := Num.sqrt (n%:R : R).
have r0 : 0 < r by rewrite sqrtr_gt0 ltr0n.
have hx : `|x - n%:R| <= u * n%:R.
  by have := acc_int accB (Posz n); rewrite -pmulrn [`|n%:R|]ger0_norm ?ler0n.
have x0 : 0 <= x.
  have := hx; rewrite ler_distl => /andP[h _]; apply: le_trans h.
  by rewrite subr_ge0 -[X in _ <= X]mul1r ler_wpmul2r ?ler0n // u_le1.
have hs : `|Num.sqrt x - r| <= u * r.
  rewrite -(ler_pmul2r r0); apply: (@le_trans _ _ (`|Num.sqrt x - r| * (Num.sqrt x + r))).
    by rewrite ler_wpmul2l // ler_addr sqrtr_ge0.
  have e : (Num.sqrt x - r) * (Num.sqrt x + r) = x - n%:R.
    by rewrite -subr_sqr !sqr_sqrtr ?ler0n.
  have p : 0 <= Num.sqrt x + r by rewrite addr_ge0 ?sqrtr_ge0 // ltW.
  by rewrite -[Num.sqrt x + r]ger0_norm // -normrM e -mulrA -expr2 sqr_sqrtr ?ler0n.
have sr : Num.sqrt x <= (1 + u) * r.
  by move: hs; rewrite ler_distl => /andP[_ h]; rewrite mulrDl mul1r.
have h1 : `|f_sqrt x - Num.sqrt x| <= u * ((1 + u) * r).
  by apply: le_trans (acc_sqrt x0) _; rewrite ler_wpmul2l.
rewrite (gtr0_norm r0); apply: le_trans (ler_dist_add (Num.sqrt x) _ _) _; apply: le_trans (ler_add h1 hs) _.
by rewrite le_eqVlt; apply/orP; left; apply/eqP; ring.
Qed.

Definition wt (n i : nat) : R := (if (i < n)%N then 1 else 0) / Num.sqrt n%:R.

Lemma wt_ge0 n i : 0 <= wt n i.
Proof. by apply: divr_ge0; [case: ifP => _; rewrite ?ler01|exact: sqrtr_ge0]. Qed.
Lemma wt_le1 n i : (0 < n)%N -> wt n i <= 1.
Proof.
move=> n0; have r1 : 1 <= Num.sqrt n%:R :> R by rewrite -[X in X <= _](@sqrtr1 R); apply: ler_wsqrtr; rewrite ler1n.
have r0 : 0 < Num.sqrt n%:R :> R by exact: lt_le_trans ltr01 r1.
by rewrite /wt ler_pdivr_mulr // mul1r; case: ifP => // _; exact: ltW.
Qed.

Lemma wt_near n i : (0 < n)%N ->
  `|f_fdiv B (if (i < n)%N then 1 else 0) (f_sqrt (f_int B (Posz n))) - wt n i| <= ((1 + u) ^+ 5 - 1) * wt n i.
Proof.
move=> n0; have r0 : 0 < Num.sqrt n%:R :> R by rewrite sqrtr_gt0 ltr0n.
set a : R := if _ then _ else _.
have a0 : 0 <= a by rewrite /a; case: ifP => _; rewrite ?ler01.
have na : near u 0 a a a by apply: near_exact; rewrite // ger0_norm.
have [_ [_]] := near_fdivK u0 accB u2_small (lt0r_neq0 r0) (root_near n0) na.
by rewrite (gtr0_norm r0).
Qed.

Definition fvec (n : nat) (d : seq R) (i : nat) : C :=
  f_mul A (f_cis d`_i) (f_fdiv B (if (i < n)%N then 1 else 0) (f_sqrt (f_int B (Posz n))))%:C%C.

Notation va := ((1 + u) ^+ 6 * (1 + c)).

Lemma va1 : 1 <= va.
Proof.
rewrite -[X in X <= _]mulr1; apply: ler_pmul; rewrite ?ler01 ?ler_addl //; exact: E1.
Qed.

Lemma cis1 x : `|cis x| = 1.
Proof. by have [_ h _] := ok; rewrite normE /py_abs -/(nsq (cis x)) h sqrtr1. Qed.

Lemma fvec_near n d i : (0 < n)%N -> `|fvec n d i - vec cis n d i| <= (((va - 1) * wt n i)%:C)%C.
Proof.
move=> n0.
have -> : (((va - 1) * wt n i)%:C)%C = ((1 + (u%:C)%C) * (((1 + u) ^+ 5)%:C%C * (1 + (c%:C)%C)) - 1) * ((wt n i)%:C)%C :> C.
  rewrite [(1 + u) ^+ 6]exprS; move: ((1 + u) ^+ 5) => z.
  by rewrite !(rmorphM, rmorphB, rmorphD, rmorph1); ring.
apply: (@amp_close _ _ _ _ _ (f_cis d`_i)); rewrite ?ler0c //.
- by have := E1 u0 5; rewrite -lecR rmorph1.
- by rewrite cis1.
- by rewrite normC ger0_norm // wt_ge0.
- have := wt_near i n0; rewrite -lecR -normC rmorphM !rmorphB rmorph1. exact.
- exact: acc_mul.
Qed.

Lemma vec_norm1 n d i : `|vec cis n d i| = ((wt n i)%:C)%C.
Proof. by rewrite /vec normrM cis1 mul1r normC ger0_norm // wt_ge0. Qed.

Lemma fvec_norm n d i : (0 < n)%N -> `|fvec n d i| <= ((va * wt n i)%:C)%C.
Proof.
move=> n0; rewrite -[fvec n d i](subrK (vec cis n d i)); apply: le_trans (ler_norm_add _ _) _.
apply: le_trans (ler_add (fvec_near d i n0) (lexx _)) _.
by rewrite vec_norm1 -rmorphD mulrBl mul1r subrK.
Qed.

Lemma wt_sum n : (0 < n)%N -> \sum_(i < m) wt n i <= m%:R.
Proof.
move=> n0; apply: (@le_trans _ _ (\sum_(i < m) 1)); first by apply: ler_sum => i _; exact: wt_le1.
by rewrite sumr_const card_ord.
Qed.

Variable net : network R.
Hypothesis netok : accurate_network f_dot m M nu net.

Definition fstate (n : nat) (d : seq R) : seq C := [seq fvec n d i | i <- iota 0 m].

Lemma fstate_nth n d i : (i < m)%N -> (fstate n d)`_i = fvec n d i.
Proof. by move=> im; rewrite (nth_map 0%N) ?size_iota // nth_iota. Qed.

Lemma amplitudes n d : (0 < n)%N -> exists ev, [/\ fl_network_simulate f_dot net (fstate n d) = Ok ev, size ev = m
  & forall i, (i < m)%N -> `|ev`_i - \sum_(j < m) ent M i j * vec cis n d j| <= ((amplitude_error u c nu m)%:C)%C].
Proof.
move=> n0; have sz : size (fstate n d) = m by rewrite size_map size_iota.
have [ev [e1 e2 e3]] := netok sz; exists ev; split=> // i im.
have h1 := e3 i im; have Mb := subunitary_entries sub.
have e4 : \sum_(j < m) ent M i j * (fstate n d)`_j = \sum_(j < m) ent M i j * fvec n d j.
  by apply: eq_bigr => j _; rewrite fstate_nth.
have h2 : \sum_(j < m) `|(fstate n d)`_j| <= ((va * \sum_(j < m) wt n j)%:C)%C.
  rewrite mulr_sumr rmorph_sum; apply: ler_sum => j _; rewrite fstate_nth //; exact: fvec_norm.
have h3 : `|\sum_(j < m) ent M i j * fvec n d j - \sum_(j < m) ent M i j * vec cis n d j| <= (((va - 1) * \sum_(j < m) wt n j)%:C)%C.
  rewrite -sumrB mulr_sumr rmorph_sum; apply: le_trans (ler_norm_sum _ _ _) _; apply: ler_sum => j _.
  rewrite -mulrBr normrM -[X in _ <= X]mul1r; apply: ler_pmul => //; first by have := Mb i j im (ltn_ord j); rewrite rmorph1.
  exact: fvec_near.
rewrite e4 in h1.
apply: le_trans (ler_dist_add _ _ _) (le_trans (ler_add h1 h3) _).
have nuC : 0 <= (nu%:C)%C :> C by rewrite ler0c.
apply: le_trans (ler_add (ler_wpmul2l nuC h2) (lexx _)) _.
rewrite -rmorphM -rmorphD lecR.
have -> : nu * (va * \sum_(j < m) wt n j) + (va - 1) * (\sum_(j < m) wt n j) = ((1 + nu) * va - 1) * (\sum_(j < m) wt n j).
  by move: (va) (\sum_(j < m) _) => a b; ring.
rewrite /amplitude_error [m%:R * _]mulrC; apply: ler_wpmul2l; last exact: wt_sum.
rewrite subr_ge0 -[X in X <= _]mulr1; apply: ler_pmul; rewrite ?ler01 ?ler_addl //; exact: va1.
Qed.

Lemma amp_error_ge0 : 0 <= amplitude_error u c nu m.
Proof.
rewrite mulr_ge0 ?ler0n // subr_ge0 -[X in X <= _]mulr1; apply: ler_pmul; rewrite ?ler01 ?ler_addl //; exact: va1.
Qed.

Lemma intensity_near z : near u 2 (nsq z) (nsq z) (fl_intensity B z).
Proof.
rewrite /fl_intensity /nsq; set a := complex.Re z; set b := complex.Im z.
have h (x y : R) : 0 <= `|x * y| -> near u 1 (x * y) `|x * y| (f_mul B x y).
  by move=> _; apply: (@near_round1 _ _ u0 0 _ _ (x * y)); [apply: near_exact|exact: acc_mul].
have := near_sub u0 accB (h a a (normr_ge0 _)) (h (- b) b (normr_ge0 _)).
by rewrite mulNr opprK normrN -!expr2 !ger0_norm ?sqr_ge0.
Qed.

Lemma intensity_ge0 z : 0 <= fl_intensity B z.
Proof.
have [_] := intensity_near z; rewrite ler_distl => /andP[h _]; apply: le_trans h.
rewrite subr_ge0 -[X in _ <= X]mul1r ler_wpmul2r ?nsq_ge0 // ler_subl_addr.
by apply: le_trans u2_small _; rewrite ler_pdivr_mulr ?ltr0n // -[1 + 1]/(2%:R : R) -natrM ler_nat.
Qed.

Lemma intensities n d : (0 < n)%N -> exists ev, [/\ fl_network_simulate f_dot net (fstate n d) = Ok ev, size ev = m
  & forall i, (i < m)%N -> `|fl_intensity B ev`_i - (smeared cis m M n d)`_i| <= intensity_error u c nu m].
Proof.
move=> n0; have [ev [e1 e2 e3]] := amplitudes d n0; exists ev; split=> // i im.
set ae := amplitude_error u c nu m; have ae0 : 0 <= ae := amp_error_ge0.
have sE : (smeared cis m M n d)`_i = nsq (\sum_(j < m) ent M i j * vec cis n d j).
  by rewrite smearedE // (nth_map 0%N) ?size_iota // nth_iota.
have s1 : nsq (\sum_(j < m) ent M i j * vec cis n d j) <= 1.
  rewrite -sE; apply: le_trans (smeared_le1 ok sub d n0).
  have sm : (i < size (smeared cis m M n d))%N by rewrite size_map size_iota.
  rewrite (big_nth 0) big_mkord (bigD1 (Ordinal sm)) //= ler_addl; apply: sumr_ge0 => j _.
  by apply: (allP (smeared_ge0 cis m M n d)); rewrite mem_nth.
rewrite sE; set z := ev`_i; set z0 := \sum_(j < m) _ in s1 *.
have nz : near (ae%:C)%C 1 z0 (1%:C)%C z.
  split; first by rewrite normE lecR -[X in _ <= X](@sqrtr1 R) ler_sqrt ?ltr01.
  by rewrite expr1 [1 + _]addrC addrK rmorph1 mulr1; exact: e3.
have := near_exp ae0 2 (near_py_abs nz); rewrite !py_abs_sq expr1n muln1 => -[_]; rewrite mulr1 => h.
have [_ h2] := intensity_near z.
have zn : nsq z <= (1 + ae) ^+ 2.
  move: h; rewrite ler_distl => /andP[_ h]; apply: le_trans h _.
  by apply: le_trans (ler_add s1 (lexx _)) _; rewrite addrC subrK.
apply: le_trans (ler_dist_add (nsq z) _ _) _.
have h3 : `|fl_intensity B z - nsq z| <= ((1 + u) ^+ 2 - 1) * (1 + ae) ^+ 2.
  by apply: le_trans h2 _; rewrite ler_wpmul2l // E0.
apply: le_trans (ler_add h3 h) _; rewrite /intensity_error -/ae.
by move: ((1 + u) ^+ 2) ((1 + ae) ^+ 2) => a b; rewrite le_eqVlt; apply/orP; left; apply/eqP; ring.
Qed.
End State.
