(* numpy's choice in rounded arithmetic, weights with any number of roundings. *)
From mathcomp Require Import all_ssreflect all_algebra complex.
From mathcomp Require Import ring zify.
From Verif Require Import Base SpecStates Combi SpecPerm PermMath SpecBS BsMath BsComb BsNorm SpecProb ProbMath ModelStates ProofSel.
From Verif Require Import ModelGcc ModelGccB ModelNet SpecNet LemNet ProofGcc3 ProofGccB1 ProofGccB2 SpecGcc LemGcc ModelBobs ProofBobs4 ProofBobs5.
From Verif Require Import SpecFixed ModelFixed ProofFixed1 ProofFixed2 ProofFixed3.
From Verif Require Import ModelFloat SpecFloat ModelFloatDist ModelFloatGcc ModelFloatGccB SpecFloatSub SpecFloatGcc SpecFloatGccB ProofFloat ProofFloat4 ProofFloatGcc1 ProofFloatGcc3 ProofFloatNet4 ProofFloatSub  ProofFloatSel ProofFloatGcc1 ProofFloatSub2 ProofFloatDist ProofFloatSelB ProofFloatGccB3
  ModelFloatNet SpecFloatNet ProofFloatNet3 ProofFloatNet4 ProofFloatNet5 LemFloatNet ModelFloatFixed SpecFloatFixed ProofFloatFixed1 ProofFloatFixed2 ProofFloatFixed3.
Set Implicit Arguments.
Unset Strict Implicit.
Unset Printing Implicit Defensive.
Import Order.TTheory GRing.Theory Num.Theory.
Local Open Scope ring_scope.
Local Open Scope py_scope.

(* choice among nearly normalised weights *)
Section ChoiceK.
Variable R : rcfType.
Variables (u : R) (B : arith R) (f_check : seq R -> R) (f_search : R -> seq R -> nat) (N : nat).
Hypothesis u0 : 0 <= u.
Hypothesis accB : accurate u B.
Hypothesis acc_check : accurate_sum u f_check.
Hypothesis srch : right_search f_search.
Hypothesis N0 : (0 < N)%N.
Notation near := (near u).
Variables w p : seq R.
Hypothesis dw : is_distr w.
Hypothesis sp : size p = size w.
Notation m := (size w).
Variable K : nat.
Hypothesis mK : (m <= K)%N.
Hypothesis smallK : (9 * K + 4)%:R * u <= (2%:R ^+ 27)^-1.
Hypothesis p_near : forall i, (i < m)%N -> near (2 * K + 1) w`_i w`_i p`_i.
Notation y := ((1 + u) ^+ (9 * K + 4) - 1).
Notation wK := (nseq K (0 : R)).
Let small : (9 * size wK + 4)%:R * u <= (2%:R ^+ 27)^-1. Proof. by rewrite size_nseq. Qed.
Let y_small' : y <= choice_tol R. Proof. by have := y_small u0 small; rewrite size_nseq. Qed.
Let pow_half' k : (k <= 9 * K + 4)%N -> (1 + u) ^+ k <= 3%:R / 2%:R.
Proof. by move=> h; apply: (pow_half u0 small); rewrite size_nseq. Qed.

Let w0 : all (fun x => 0 <= x) w. Proof. by case: dw. Qed.
Let w1 : \sum_(x <- w) x = 1. Proof. by case: dw. Qed.
Let nonneg k (v x : R) (h : (k <= 9 * K + 4)%N) : near k v v x -> 0 <= x.
Proof. by apply: (near_nonneg u0 small); rewrite size_nseq. Qed.

Lemma sp_nn : all (fun x => 0 <= x) p.
Proof.
apply/(all_nthP 0) => i; rewrite sp => im.
by apply: nonneg (p_near im); move: mK; lia.
Qed.

Lemma sp_psum j : (j <= m)%N -> near (2 * K + 1 + j) (cum w j) (cum w j) (fl_partial_sum B p j).
Proof.
elim: j => [|j IH] jm.
  by rewrite cum0 /fl_partial_sum take0; apply: near_exact; rewrite ?normr0.
rewrite /fl_partial_sum (take_nth 0) ?sp // -cats1 foldl_cat /= -/(fl_partial_sum B p j).
rewrite cumS addnS; apply: near_add => //; first exact: IH (ltnW jm).
by apply: near_k (p_near jm) => //; move: mK; lia.
Qed.

Lemma sp_cdf j : (j < m)%N -> near (9 * K + 4) (cum w j.+1) (cum w j.+1) (fl_choice_cdf B p)`_j.
Proof.
move=> jm; rewrite /fl_choice_cdf sp (nth_map 0%N) ?size_iota // nth_iota // add0n.
have [_ h1] := sp_psum (leqnn m); rewrite cum_all w1 -[X in _ * X](normr1 R) in h1.
have m3 : (1 + u) ^+ (2 * K + 1 + m) <= 3%:R / 2%:R by apply: pow_half'; move: mK; lia.
have [_] := near_fdivK u0 accB m3 (oner_neq0 _) h1 (sp_psum jm).
by rewrite normr1 !divr1; apply: near_k => //; move: mK; lia.
Qed.

Lemma sp_size_cdf : size (fl_choice_cdf B p) = m.
Proof. by rewrite size_map size_iota sp. Qed.

Definition sidx (k : nat) : nat := f_search (k%:R / N%:R) (fl_choice_cdf B p).

Lemma sp_choice : fl_np_choice B f_check f_search N p = Int N (fun k => Ret (Ok (sidx k))).
Proof.
rewrite /fl_np_choice.
have -> : has (fun x => x < 0) p = false.
  by apply/negbTE; rewrite -all_predC; apply: sub_all sp_nn => x /=; rewrite -leNgt.
suff -> : (choice_tol R < `|f_sub B (f_check p) 1|) = false by [].
apply/negbTE; rewrite -leNgt.
have h : near (2 * K + 1 + m) 1 1 (f_check p).
  have := @near_sum R u f_check u0 acc_check (2 * K + 1) _ (iota 0 m) (fun i => w`_i) (fun i => w`_i) (fun i => p`_i) _.
  have -> : [seq p`_i | i <- iota 0 m] = p by rewrite -{1}sp; exact: mkseq_nth.
  rewrite size_iota.
  have -> : \sum_(i <- iota 0 m) w`_i = 1 by rewrite -w1 [RHS](big_nth 0) /index_iota subn0.
  by apply=> i; rewrite mem_iota => /= im; apply: p_near.
apply: le_trans y_small'.
have a := acc_sub accB (f_check p) 1; case: h => _ h; rewrite mulr1 in h.
have -> : f_sub B (f_check p) 1 = (f_sub B (f_check p) 1 - (f_check p - 1)) + (f_check p - 1) by rewrite subrK.
apply: le_trans (ler_norm_add _ _) _; apply: le_trans (ler_add a (lexx _)) _.
rewrite -[X in _ + X]mul1r -mulrDl [u + 1]addrC.
apply: le_trans (ler_wpmul2l _ h) _; first by rewrite addr_ge0 ?ler01.
rewrite mulrBr mulr1 -exprS; apply: ler_sub; first by apply: E_le => //; move: mK; lia.
by rewrite ler_addl.
Qed.

Lemma sp_cum i : (i <= m)%N -> 0 <= cum w i <= 1.
Proof. by move=> im; rewrite cum_nn //= -w1 -cum_all; apply: cum_mono. Qed.

Lemma sidx_upper i k : (i <= m)%N -> (sidx k < i)%N -> k%:R / N%:R <= cum w i + y.
Proof.
move=> im lt; have [_ _] := srch (k%:R / N%:R) (fl_choice_cdf B p); rewrite -/(sidx k) sp_size_cdf.
have cm : (sidx k < m)%N by apply: leq_trans lt im.
move=> /(_ cm) h; apply: le_trans (ltW h) _.
have [_] := sp_cdf cm; rewrite ler_norml => /andP[_ h']; rewrite ler_subl_addr in h'.
apply: le_trans h' _; rewrite addrC; apply: ler_add; first exact: cum_mono.
rewrite -[X in _ <= X]mulr1; apply: ler_wpmul2l; first exact: E0.
by have /andP[] := sp_cum cm.
Qed.

Lemma sidx_lower i k : (i <= m)%N -> (i <= sidx k)%N -> cum w i - y <= k%:R / N%:R.
Proof.
move=> im le; have [cm h _] := srch (k%:R / N%:R) (fl_choice_cdf B p); rewrite -/(sidx k) sp_size_cdf in cm h.
case: (posnP i) => [->|i0].
  rewrite cum0 sub0r; apply: (@le_trans _ _ 0); first by rewrite oppr_le0 E0.
  by rewrite divr_ge0 ?ler0n.
have s0 : (0 < sidx k)%N by apply: leq_trans i0 le.
apply: le_trans (h s0); case E: (sidx k) s0 le cm => [//|j] _ le cm.
have [_] := sp_cdf cm; rewrite ler_norml => /andP[h1 _]; rewrite ler_subr_addr in h1.
apply: le_trans h1; rewrite addrC; apply: ler_add; last exact: cum_mono.
rewrite ler_opp2 -[X in _ <= X]mulr1; apply: ler_wpmul2l; first exact: E0.
by have /andP[] := sp_cum cm.
Qed.

Lemma sidx_le k : (sidx k <= m)%N.
Proof. by have [] := srch (k%:R / N%:R) (fl_choice_cdf B p); rewrite -/(sidx k) sp_size_cdf. Qed.

Lemma sp_avg (V : nat -> R) : (forall i, (i <= m)%N -> 0 <= V i <= 1) ->
  `|(\sum_(k < N) V (sidx k)) / N%:R - \sum_(i < m) w`_i * V i| <= (m + m.+1)%:R * choice_error u N K.
Proof.
move=> V01; have := @grid_avg R N m sidx (cum w) y N0 (E0 u0 _) sp_cum sidx_upper sidx_lower sidx_le V V01.
rewrite cum_all w1 subrr mul0r addr0.
suff -> : \sum_(i < m) (cum w i.+1 - cum w i) * V i = \sum_(i < m) w`_i * V i by [].
by apply: eq_bigr => i _; rewrite cumS addrC addKr.
Qed.
End ChoiceK.

