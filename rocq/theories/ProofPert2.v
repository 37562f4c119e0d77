(* How much the probabilities change when the network changes. *)
From mathcomp Require Import all_ssreflect all_algebra complex.
From mathcomp Require Import ring zify.
From Verif Require Import Base SpecStates Combi SpecPerm PermMath SpecBS BsMath BsComb BsNorm BsSym SpecNet ProofBobs1 SpecMat ProofMat ProofPert1.
From Verif Require Import ProofSym3 ProofSym4.
Set Implicit Arguments.
Unset Strict Implicit.
Unset Printing Implicit Defensive.
Import Order.TTheory GRing.Theory Num.Theory.
Local Open Scope ring_scope.

Section Pert.
Variable R : rcfType.
Notation C := (ComplexField.complex_numFieldType R).
Notation mat := (seq (seq C)).
Variables (m : nat) (U V : mat).
Hypotheses (uU : unitary m U) (uV : unitary m V).

Lemma bs_prob_pert s : size s = m ->
  \sum_(t <- comps m (sumn s)) `|bs_prob U s t - bs_prob V s t| <= 2%:R * ((sumn s)%:R * frobenius m m U V).
Proof.
move=> zs; set n := sumn s; set e := frobenius m m U V.
have f0 : 0 < (factprod s)%:R :> R by rewrite ltr0n factprod_gt0.
have n0 : 0 < (n`!)%:R :> R by rewrite ltr0n fact_gt0.
have nn k (z : C) : nsq (k%:R * z) = k%:R ^+ 2 * nsq z.
  by rewrite nsqM; congr (_ * _); rewrite -[k%:R](rmorph_nat (ComplexField.real_complex_rmorphism R)) /= nsq_real.
have isoU (w : nat -> C) : \sum_(a < m) nsq (\sum_(b < m) ent U a b * w b) = \sum_(b < m) nsq (w b).
  by have := unitary_norm w uU.
have isoV (w : nat -> C) : \sum_(a < m) nsq (\sum_(b < m) ent V a b * w b) = \sum_(b < m) nsq (w b).
  by have := unitary_norm w uV.
have bd (w : nat -> C) : \sum_(a < m) nsq (\sum_(b < m) (ent U a b - ent V a b) * w b) <= e ^+ 2 * \sum_(b < m) nsq (w b).
  rewrite sqr_sqrtr ?frob_sum_ge0 // mulr_suml; apply: ler_sum => a _; exact: nsq_cs.
pose W := words m n; pose f := ap m (ent U) n (occ R s); pose g := ap m (ent V) n (occ R s).
have D := ap_diff isoU isoV (frob_ge0 _ _ _ _) bd n (occ R s).
have sum := sum_abs_nsq W f g.
have lf : len W f = len W (occ R s) by exact: ap_len.
have lg : len W g = len W (occ R s) by exact: ap_len.
have lo := occ_len R zs (erefl n).
pose h x := `|nsq (PerO (ent U) x s) - nsq (PerO (ent V) x s)|.
have hE x : size x = n -> (factprod s)%:R ^+ 2 * `|nsq (f x) - nsq (g x)| = h x.
  move=> sx; have ez : sumn s = size x by rewrite sx.
  rewrite /h /f /g -(ap_occ (ent U) zs ez) -(ap_occ (ent V) zs ez) sx !nn -mulrBr normrM ger0_norm //.
  by rewrite exprn_ge0 // ltW.
have inv x x' : size x = n -> perm_eq x x' -> h x = h x'.
  move=> sx pe; have sx' : size x' = n by rewrite -(perm_size pe).
  by rewrite /h !PerO_PerL !(PerL_rows _ _ pe) ?size_particle_modes.
have key : \sum_(t <- comps m n) `|bs_prob U s t - bs_prob V s t| = (factprod s)%:R / (n`!)%:R * \sum_(x <- W) `|nsq (f x) - nsq (g x)|.
  transitivity ((factprod s)%:R^-1 / (n`!)%:R * \sum_(x <- W) h x); last first.
    rewrite !mulr_sumr big_seq [RHS]big_seq; apply: eq_bigr => x xW.
    have -> : h x = (factprod s)%:R ^+ 2 * `|nsq (f x) - nsq (g x)|.
      by rewrite hE // (size_words xW).
    by move: (`|_|) => y; field; rewrite !gt_eqF.
  rewrite words_comps // -mulrA mulKf ?gt_eqF // mulr_sumr; apply: eq_big_seq => t; rewrite mem_comps => /andP[/eqP st /eqP et].
  rewrite /bs_prob -mulrBl normrM natrM invfM normrM !bs_permanent_PerO ?et //.
  rewrite [`|_%:R^-1|]ger0_norm ?invr_ge0 ?ler0n // [`|(factprod t)%:R^-1|]ger0_norm ?invr_ge0 ?ler0n // /h.
  by rewrite mulrCA.
rewrite key; apply: le_trans (ler_wpmul2l _ sum) _; first by rewrite divr_ge0 ?ltW.
rewrite lf lg; set L := len W (occ R s) in lo D *.
have L0 : 0 <= L by exact: len_ge0.
have q0 : 0 <= (factprod s)%:R / (n`!)%:R :> R by rewrite divr_ge0 ?ltW.
apply: le_trans (ler_wpmul2l q0 (ler_wpmul2r _ D)) _; first by rewrite addr_ge0.
rewrite le_eqVlt; apply/orP; left; apply/eqP.
transitivity (2%:R * (n%:R * e) * ((factprod s)%:R * L ^+ 2 / (n`!)%:R)).
  by move: (n`!)%:R^-1 => z; rewrite -/e; clear; move: (factprod s)%:R n%:R e L => a b c d; ring.
by rewrite lo divff ?mulr1 // gt_eqF.
Qed.

Lemma fixed_loss_pert s l : size s = m -> (l <= sumn s)%N ->
  \sum_(t <- comps m l) `|fixed_loss_prob U s t - fixed_loss_prob V s t| <= 2%:R * (l%:R * frobenius m m U V).
Proof.
move=> zs le.
have c0 : 0 < 'C(sumn s, l)%:R :> R by rewrite ltr0n bin_gt0.
rewrite -(ler_pmul2l c0) mulr_sumr.
apply: (@le_trans _ _ (\sum_(t <- comps m l) \sum_(T <- subs s | sumn T == l) (ways s T)%:R * `|bs_prob U T t - bs_prob V T t|)).
  rewrite big_seq [X in _ <= X]big_seq; apply: ler_sum => t; rewrite mem_comps => /andP[_ /eqP et].
  rewrite /fixed_loss_prob et -mulrBl normrM [`|_^-1|]ger0_norm ?invr_ge0 ?ler0n // mulrCA divff ?gt_eqF // mulr1.
  rewrite -sumrB; apply: le_trans (ler_norm_sum _ _ _) _; apply: ler_sum => T _.
  by rewrite -mulrBr normrM [`|_%:R|]ger0_norm ?ler0n.
rewrite exchange_big /= -vandermonde [X in _ <= X]mulr_suml.
rewrite big_seq_cond [X in _ <= X]big_seq_cond; apply: ler_sum => T /andP[]; rewrite mem_subs => sT /eqP eT.
rewrite -mulr_sumr ler_wpmul2l ?ler0n //; have [zT _] := substateP _ _ sT.
by rewrite -{1}eT -[in X in _ <= X]eT; apply: bs_prob_pert; rewrite zT.
Qed.

Lemma uniform_loss_pert s eta : size s = m -> 0 <= eta <= 1 ->
  \sum_(l < (sumn s).+1) \sum_(t <- comps m l) `|uniform_loss_prob U s eta t - uniform_loss_prob V s eta t|
  <= 2%:R * ((sumn s)%:R * eta * frobenius m m U V).
Proof.
move=> zs e01.
apply: (@le_trans _ _ (\sum_(l < (sumn s).+1) binomial_weight (sumn s) eta l * (2%:R * (l%:R * frobenius m m U V)))); last first.
  rewrite -(binomial_mean (sumn s) eta) mulr_suml mulr_sumr; apply: ler_sum => l _; rewrite le_eqVlt.
  by move: (binomial_weight _ _ _) l%:R (frobenius _ _ _ _) => a b c; apply/orP; left; apply/eqP; ring.
apply: ler_sum => l _; have w0 : 0 <= binomial_weight (sumn s) eta l.
  by case/andP: e01 => h0 h1; rewrite /binomial_weight !mulr_ge0 ?exprn_ge0 ?ler0n ?subr_ge0.
apply: le_trans (ler_wpmul2l w0 (fixed_loss_pert zs (ltn_ord l))).
rewrite mulr_sumr big_seq [X in _ <= X]big_seq; apply: ler_sum => t; rewrite mem_comps => /andP[_ /eqP et].
by rewrite /uniform_loss_prob et -mulrBr normrM ger0_norm.
Qed.
End Pert.
