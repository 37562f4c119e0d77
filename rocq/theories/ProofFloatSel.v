(* Selection by a cumulative search with rounded sums and a random number of
   finite resolution. *)
From mathcomp Require Import all_ssreflect all_algebra complex.
From mathcomp Require Import ring zify.
From Verif Require Import Base SpecProb ProbMath ModelGcc ProofSel ModelFloat SpecFloat ProofFloat ModelFloatGcc.
Set Implicit Arguments.
Unset Strict Implicit.
Unset Printing Implicit Defensive.
Import Order.Theory GRing.Theory Num.Theory.
Local Open Scope ring_scope.

(* numbers below a threshold *)
Section Count.
Variable R : realFieldType.

Definition below (y : R) (N : nat) : nat := \sum_(k < N) (k%:R < y)%R.

Lemma below_le y N : -1 <= y -> (below y N)%:R <= y + 1.
Proof.
move=> y0; suff : (below y N <= N)%N /\ (below y N)%:R <= y + 1 by case.
elim: N => [|N [IH1 IH2]].
  by rewrite /below big_ord0; split=> //; rewrite -ler_subl_addr sub0r.
rewrite /below big_ord_recr -/(below y N) /=; case: ltP => [lt|_] /=; last first.
  by rewrite addn0; split=> //; apply: leqW.
split; first by rewrite addn1 ltnS.
by rewrite natrD ler_add2r; apply: le_trans (ltW lt); rewrite ler_nat.
Qed.

Lemma below_ge y N : y <= N%:R -> y <= (below y N)%:R.
Proof.
suff : y <= (below y N)%:R \/ below y N = N by case=> [//|->].
elim: N => [|N IH]; first by right; rewrite /below big_ord0.
rewrite /below big_ord_recr -/(below y N) /=; case: IH => [le|e].
  by left; apply: le_trans le _; rewrite ler_nat leq_addr.
rewrite e; case: ltP => [lt|ge] /=; first by right; rewrite addn1.
by left; rewrite addn0.
Qed.

End Count.

Section Sel.
Variable R : rcfType.
Variables (u : R) (B : arith R) (f_sum : seq R -> R) (N : nat).
Hypothesis u0 : 0 <= u.
Hypothesis accB : accurate u B.
Hypothesis acc_sum : forall l, `|f_sum l - \sum_(x <- l) x| <= ((1 + u) ^+ size l - 1) * \sum_(x <- l) `|x|.
Hypothesis N0 : (0 < N)%N.
Notation near := (near u).
Implicit Types (l w : seq R).

Lemma near_foldl k (v a z : R) l : all (fun x => 0 <= x) l -> near k v a z ->
  near (k + size l) (v + \sum_(x <- l) x) (a + \sum_(x <- l) x) (foldl (f_add B) z l).
Proof.
elim: l k v a z => [|x l IH] k v a z /=; first by rewrite big_nil !addr0 addn0.
case/andP=> x0 l0 nz; rewrite big_cons !addrA -addSnnS; apply: IH => //.
by apply: near_add => //; apply: near_exact; rewrite // ger0_norm.
Qed.

(* partial sums *)
Definition psum l j := foldl (f_add B) 0 (take j l).

Lemma search_le v acc i l j : (j < size l)%N -> v < foldl (f_add B) acc (take j.+1 l) ->
  (fl_cum_search B v acc i l <= i + j)%N.
Proof.
elim: l acc i j => [//|p l IH] acc i j /=; rewrite ltnS => jl h.
case: ltP => [lt|ge]; first by rewrite leq_addr.
case: j jl h => [|j] jl h; first by move: h; rewrite take0 /= ltNge ge.
by rewrite addnS -addSn; apply: IH.
Qed.

Lemma search_lt v acc i l j : (j < size l)%N -> fl_cum_search B v acc i l = (i + j)%N ->
  v < foldl (f_add B) acc (take j.+1 l).
Proof.
elim: l acc i j => [//|p l IH] acc i j /=; rewrite ltnS => jl.
case: ltP => [lt|ge].
  by case: j jl => [|j] jl h; [rewrite take0|lia].
case: j jl => [|j] jl h; last by apply: (IH _ i.+1) => //; rewrite h addnS.
have G v' acc' i' l' : (i' <= fl_cum_search B v' acc' i' l')%N.
  by elim: l' acc' i' => [//|p' l' IH'] acc' i' /=; case: ifP => // _; apply: ltnW.
by have := G v (f_add B acc p) i.+1 l; rewrite h addn0 ltnn.
Qed.

Lemma cumE l j : (j <= size l)%N -> cum l j = \sum_(x <- take j l) x.
Proof.
move=> jl; rewrite /cum (big_nth 0) size_takel // big_mkord; apply: eq_bigr => i _.
by rewrite nth_take.
Qed.

Section Weights.
Variable w : seq R.
Hypothesis w0 : all (fun x => 0 <= x) w.
Notation m := (size w).
Notation x := ((1 + u) ^+ m.+1 - 1).
Hypothesis x4 : x <= 4%:R^-1.
Notation S := (\sum_(x <- w) x).
Notation Sh := (f_sum w).

Definition idx (k : nat) : nat := fl_cum_search B (f_mul B (k%:R / N%:R) Sh) 0 0 w.
Definition phat (i : nat) : R := (\sum_(k < N) (idx k == i))%N%:R / N%:R.
Definition gam : R := 5%:R * x + N%:R^-1.

Lemma x_ge0 : 0 <= x. Proof. exact: E0. Qed.
Lemma u_le : u <= x.
Proof.
have := E_le u0 (isT : (1 <= m.+1)%N); rewrite expr1 => h.
by rewrite ler_subr_addl.
Qed.
Lemma xm_le : (1 + u) ^+ m - 1 <= x.
Proof. by rewrite ler_add2r E_le. Qed.
Lemma S_ge0 : 0 <= S.
Proof. by rewrite big_seq_cond sumr_ge0 // => y /andP[/(allP w0)]. Qed.

Lemma part_ge0 j : all (fun x => 0 <= x) (take j w).
Proof. by apply/allP => y /mem_take /(allP w0). Qed.

Lemma cum_nn j : (j <= m)%N -> 0 <= cum w j.
Proof. by move=> jm; rewrite cumE // big_seq_cond sumr_ge0 // => y /andP[/(allP (part_ge0 j))]. Qed.

Lemma cum_mono i j : (i <= j)%N -> (j <= m)%N -> cum w i <= cum w j.
Proof.
move=> ij; elim: j ij => [|j IH]; first by rewrite leqn0 => /eqP ->.
rewrite leq_eqVlt => /orP[/eqP -> //|ij] jm; apply: le_trans (IH _ (ltnW jm)) _; first by [].
by rewrite cumS ler_addl (allP w0) // mem_nth.
Qed.

Lemma cum_all : cum w m = S.
Proof. by rewrite cumE // take_size. Qed.

Lemma psum_near j : (j <= m)%N -> `|psum w j - cum w j| <= x * cum w j.
Proof.
move=> jm; have n0 : near 0 0 0 (0 : R) by apply: near_exact => //; rewrite normr0.
have [_] := near_foldl (part_ge0 j) n0; rewrite !add0r -cumE // size_takel // -/(psum w j) => h.
apply: le_trans h _; apply: ler_wpmul2r; first exact: cum_nn.
by rewrite ler_add2r E_le // leqW.
Qed.

Lemma Sh_near : `|Sh - S| <= x * S.
Proof.
apply: le_trans (acc_sum w) _.
have -> : \sum_(y <- w) `|y| = S by apply: eq_big_seq => y /(allP w0) y0; rewrite ger0_norm.
exact: (ler_wpmul2r S_ge0 xm_le).
Qed.

Lemma Sh_lo : (1 - x) * S <= Sh.
Proof.
have := Sh_near; rewrite ler_norml => /andP[h _].
by rewrite mulrBl mul1r addrC -ler_subr_addr.
Qed.

Lemma Sh_hi : Sh <= (1 + x) * S.
Proof.
have := Sh_near; rewrite ler_norml => /andP[_ h].
by rewrite mulrDl mul1r addrC -ler_subl_addr.
Qed.

Lemma psum_lo j : (j <= m)%N -> (1 - x) * cum w j <= psum w j.
Proof.
move=> jm; have := psum_near jm; rewrite ler_norml => /andP[h _].
by rewrite mulrBl mul1r addrC -ler_subr_addr.
Qed.

Lemma psum_hi j : (j <= m)%N -> psum w j <= (1 + x) * cum w j.
Proof.
move=> jm; have := psum_near jm; rewrite ler_norml => /andP[_ h].
by rewrite mulrDl mul1r addrC -ler_subl_addr.
Qed.

Lemma x1 : x <= 1.
Proof. by apply: le_trans x4 _; rewrite invf_le1 ?ltr0n // ler1n. Qed.

Lemma Sh_ge0 : 0 <= Sh.
Proof. by apply: le_trans Sh_lo; rewrite mulr_ge0 ?S_ge0 // subr_ge0 x1. Qed.

Lemma draw_ge0 k : 0 <= k%:R / N%:R :> R.
Proof. by rewrite divr_ge0 ?ler0n. Qed.

Lemma val_lo k : (1 - x) ^+ 2 * (k%:R / N%:R * S) <= f_mul B (k%:R / N%:R) Sh.
Proof.
set c := k%:R / N%:R; have c0 : 0 <= c := draw_ge0 k.
have := acc_mul accB c Sh; rewrite (ger0_norm (mulr_ge0 c0 Sh_ge0)) ler_norml => /andP[h _].
apply: (@le_trans _ _ ((1 - u) * (c * Sh))); last by rewrite mulrBl mul1r addrC -ler_subr_addr.
rewrite expr2 -mulrA; apply: ler_pmul.
- by rewrite subr_ge0 x1.
- by apply: mulr_ge0; [rewrite subr_ge0 x1|apply: mulr_ge0 => //; exact: S_ge0].
- by rewrite ler_add2l ler_opp2 u_le.
- by rewrite mulrCA ler_wpmul2l // Sh_lo.
Qed.

Lemma val_hi k : f_mul B (k%:R / N%:R) Sh <= (1 + x) ^+ 2 * (k%:R / N%:R * S).
Proof.
set c := k%:R / N%:R; have c0 : 0 <= c := draw_ge0 k.
have := acc_mul accB c Sh; rewrite (ger0_norm (mulr_ge0 c0 Sh_ge0)) ler_norml => /andP[_ h].
apply: (@le_trans _ _ ((1 + u) * (c * Sh))); first by rewrite mulrDl mul1r addrC -ler_subl_addr.
rewrite expr2 -mulrA; apply: ler_pmul.
- by rewrite addr_ge0 ?ler01.
- by rewrite mulr_ge0 ?Sh_ge0.
- by rewrite ler_add2l u_le.
- by rewrite mulrCA ler_wpmul2l // Sh_hi.
Qed.

(* number of draws selecting one of the first i entries *)
Definition sel (i : nat) : nat := \sum_(k < N) (idx k < i)%N.

Lemma sel0 : sel 0 = 0%N. Proof. by rewrite /sel big1. Qed.
Lemma selS i : sel i.+1 = (sel i + \sum_(k < N) (idx k == i))%N.
Proof.
rewrite /sel -big_split; apply: eq_bigr => k _ /=.
by rewrite ltnS leq_eqVlt; case: ltngtP.
Qed.

Lemma sel_le (P : pred nat) i : (forall k, (k < N)%N -> (idx k < i)%N -> P k) ->
  (sel i <= \sum_(k < N) P k)%N.
Proof.
move=> h; apply: leq_sum => k _; case e: (idx k < i)%N => //=.
by rewrite (h _ (ltn_ord k) e).
Qed.
Lemma sel_ge (P : pred nat) i : (forall k, (k < N)%N -> P k -> (idx k < i)%N) ->
  (\sum_(k < N) P k <= sel i)%N.
Proof.
move=> h; apply: leq_sum => k _; case e: (P k) => //=.
by rewrite (h _ (ltn_ord k) e).
Qed.

Lemma NR : 0 < N%:R :> R. Proof. by rewrite ltr0n. Qed.

Lemma sel_upper i : (i <= m)%N -> 0 < S -> (sel i)%:R / N%:R <= cum w i / S + gam.
Proof.
move=> im S0; set f := cum w i / S.
have f0 : 0 <= f by rewrite divr_ge0 ?cum_nn // ltW.
have f1 : f <= 1 by rewrite ler_pdivr_mulr // mul1r -cum_all; apply: cum_mono.
have x0 := x_ge0.
rewrite ler_pdivr_mulr ?NR //.
apply: (@le_trans _ _ ((below (N%:R * (f + 5%:R * x)) N)%:R)); last first.
  apply: le_trans (below_le _ _) _.
    apply: (@le_trans _ _ 0); first by rewrite oppr_le0 ler01.
    by rewrite mulr_ge0 ?ler0n // addr_ge0 // mulr_ge0 ?ler0n.
  suff -> : (f + gam) * N%:R = N%:R * (f + 5%:R * x) + 1 by [].
  by rewrite /gam; move: x (gt_eqF NR) => z /negbT nz; field.
rewrite ler_nat; apply: (@sel_le (fun k => k%:R < _)) => k kN /= ki.
have jm : (idx k < m)%N by apply: leq_trans ki im.
have h := search_lt (i := 0%N) jm (erefl _ : _ = (0 + _)%N).
rewrite -/(psum w (idx k).+1) in h.
have h1 : (1 - x) ^+ 2 * (k%:R / N%:R * S) < (1 + x) * cum w i.
  apply: le_lt_trans (val_lo k) (lt_le_trans h _); apply: le_trans (psum_hi jm) _.
  by apply: ler_wpmul2l; [apply: addr_ge0; rewrite ?ler01|apply: cum_mono].
have y0 : 0 < (1 - x) ^+ 2.
  rewrite exprn_gt0 // subr_gt0; apply: le_lt_trans x4 _; rewrite invf_lt1 ?ltr0n // ltr1n //.
rewrite mulrC -ltr_pdivr_mulr ?NR // -(ltr_pmul2r S0) -(ltr_pmul2l y0).
apply: lt_le_trans h1 _.
have -> : cum w i = f * S by rewrite divfK // gt_eqF.
move: (f) f0 f1 => {}f f0 f1; rewrite !mulrA; apply: ler_wpmul2r; first exact: ltW.
apply: (@le_trans _ _ ((1 - x) ^+ 2 * (f + 5%:R * x * f))); last first.
  rewrite ler_wpmul2l ?(ltW y0) // ler_add2l -[X in _ <= X]mulr1 ler_wpmul2l //.
  by rewrite mulr_ge0 ?ler0n.
have -> : (1 - x) ^+ 2 * (f + 5%:R * x * f) = (1 - x) ^+ 2 * (1 + 5%:R * x) * f.
  by move: x => z; ring.
apply: ler_wpmul2r => //; rewrite -subr_ge0.
have -> : (1 - x) ^+ 2 * (1 + 5%:R * x) - (1 + x) = x * (2%:R * (1 - 4%:R * x) + 5%:R * x ^+ 2 - x).
  by move: x => z; ring.
apply: mulr_ge0 => //.
have h4 : 0 <= 1 - 4%:R * x.
  by rewrite subr_ge0 -ler_pdivl_mull ?ltr0n // mulr1.
have -> : 2%:R * (1 - 4%:R * x) + 5%:R * x ^+ 2 - x =
  (1 - 4%:R * x) * (2%:R - x - 4%:R^-1) + (x ^+ 2 + 4%:R^-1 - x) by field.
apply: addr_ge0; last first.
  have -> : x ^+ 2 + 4%:R^-1 - x = (x - 2%:R^-1) ^+ 2 by field.
  exact: sqr_ge0.
apply: mulr_ge0 => //.
have -> : 2%:R - x - 4%:R^-1 = (4%:R^-1 - x) + 3%:R / 2%:R :> R by field.
by apply: addr_ge0; rewrite ?subr_ge0 // divr_ge0 ?ler0n.
Qed.

Lemma gam_ge : 5%:R * x <= gam.
Proof. by rewrite /gam ler_addl invr_ge0 ler0n. Qed.

Lemma gam_ge0 : 0 <= gam.
Proof. by apply: le_trans gam_ge; apply: mulr_ge0; [rewrite ler0n|exact: x_ge0]. Qed.

Lemma sel_lower i : (i <= m)%N -> 0 < S -> cum w i / S - gam <= (sel i)%:R / N%:R.
Proof.
move=> im S0; case: i im => [_|i im].
  by rewrite cum0 mul0r sub0r; apply: (@le_trans _ _ 0); rewrite ?oppr_le0 ?gam_ge0 // draw_ge0.
set f := cum w i.+1 / S.
have f0 : 0 <= f by rewrite divr_ge0 ?cum_nn // ltW.
have f1 : f <= 1 by rewrite ler_pdivr_mulr // mul1r -cum_all; apply: cum_mono.
have x0 := x_ge0.
apply: (@le_trans _ _ (f - 5%:R * x)); first by rewrite ler_add2l ler_opp2 gam_ge.
rewrite ler_pdivl_mulr ?NR // mulrC.
apply: (@le_trans _ _ ((below (N%:R * (f - 5%:R * x)) N)%:R)).
  apply: below_ge; rewrite -[X in _ <= X]mulr1 ler_wpmul2l ?ler0n // ler_subl_addr.
  by apply: le_trans f1 _; rewrite ler_addl mulr_ge0 // ler0n.
rewrite ler_nat; apply: (@sel_ge (fun k => k%:R < _)) => k kN /= ki.
rewrite ltnS -[X in (_ <= X)%N]add0n; apply: search_le => //; rewrite -/(psum w i.+1).
apply: le_lt_trans (val_hi k) (lt_le_trans _ (psum_lo im)).
have -> : cum w i.+1 = f * S by rewrite divfK // gt_eqF.
have ki' : k%:R / N%:R < f - 5%:R * x by rewrite ltr_pdivr_mulr ?NR // mulrC.
move: (f) f0 f1 ki' => {ki} {}f f0 f1 ki'.
rewrite !mulrA ltr_pmul2r //.
have y0 : 0 < (1 + x) ^+ 2 by rewrite exprn_gt0 // ltr_spaddl ?ltr01.
rewrite -mulrA; apply: (@lt_le_trans _ _ ((1 + x) ^+ 2 * (f - 5%:R * x))); first by rewrite ltr_pmul2l.
apply: (@le_trans _ _ ((1 + x) ^+ 2 * (f - 5%:R * x * f))).
  rewrite ler_wpmul2l ?(ltW y0) // ler_add2l ler_opp2 -[X in _ <= X]mulr1 ler_wpmul2l //.
  by rewrite mulr_ge0 ?ler0n.
have -> : (1 + x) ^+ 2 * (f - 5%:R * x * f) = (1 + x) ^+ 2 * (1 - 5%:R * x) * f.
  by move: x => z; ring.
apply: ler_wpmul2r => //; rewrite -subr_ge0.
have -> : 1 - x - (1 + x) ^+ 2 * (1 - 5%:R * x) = x * (2%:R + 9%:R * x + 5%:R * x ^+ 2).
  by move: x => z; ring.
apply: mulr_ge0 => //; apply: addr_ge0; first by apply: addr_ge0; rewrite ?ler0n // mulr_ge0 ?ler0n.
by apply: mulr_ge0; rewrite ?ler0n // exprn_ge0.
Qed.

Lemma phat_ge0 i : 0 <= phat i. Proof. exact: draw_ge0. Qed.

Lemma phat_near i : (i < m)%N -> 0 < S -> `|phat i - w`_i / S| <= 2%:R * gam.
Proof.
move=> im S0; rewrite /phat.
have -> : (\sum_(k < N) (idx k == i))%N%:R = (sel i.+1)%:R - (sel i)%:R :> R.
  by rewrite selS natrD addrC addKr.
have -> : w`_i = cum w i.+1 - cum w i by rewrite cumS addrC addKr.
rewrite !mulrBl; have := sel_upper im S0; have := sel_lower im S0.
have := sel_upper (ltnW im) S0; have := sel_lower (ltnW im) S0.
set a := cum w i / S; set b := cum w i.+1 / S; set c := _ / N%:R; set d := _ / N%:R.
move=> h1 h2 h3 h4; rewrite ler_norml; apply/andP; split; rewrite -subr_ge0.
  have -> : d - c - (b - a) - - (2%:R * gam) = (d - (b - gam)) + (a + gam - c) by ring.
  by apply: addr_ge0; rewrite subr_ge0.
have -> : 2%:R * gam - (d - c - (b - a)) = (b + gam - d) + (c - (a - gam)) by ring.
by apply: addr_ge0; rewrite subr_ge0.
Qed.

Lemma S0_phat i : S = 0 -> (i < m)%N -> phat i = 0.
Proof.
move=> S0 im; rewrite /phat big1 ?mul0r // => k _; apply/eqP; rewrite eqb0; apply/eqP => e.
have := search_lt (i := 0%N) im e; rewrite -/(psum w i.+1) ltNge => /negP; apply.
have c0 : cum w i.+1 = 0.
  by apply/eqP; rewrite eq_le cum_nn // andbT -S0 -cum_all cum_mono.
have := psum_hi im; rewrite c0 mulr0 => h.
by apply: le_trans h _; have := val_lo k; rewrite S0 !mulr0.
Qed.

Lemma sel_bound (q : nat -> R) (d : R) : (forall i, 0 <= q i) ->
  (forall i, (i < m)%N -> `|w`_i - q i| <= d) ->
  \sum_(i < m) `|(\sum_(j < m) q j) * phat i - q i| <=
    2%:R * m%:R * gam * (\sum_(j < m) q j) + 2%:R * m%:R * d.
Proof.
set Q := \sum_(j < m) q j; move=> q0 h.
have Q0 : 0 <= Q by apply: sumr_ge0.
have SE : S = \sum_(i < m) w`_i by rewrite (big_nth 0) big_mkord.
have md : \sum_(i < m) `|w`_i - q i| <= m%:R * d.
  apply: (@le_trans _ _ (\sum_(i < m) d)); first by apply: ler_sum => i _; apply: h.
  by rewrite sumr_const card_ord mulr_natl.
have QS : `|Q - S| <= m%:R * d.
  apply: le_trans md; rewrite SE -sumrB; apply: le_trans (ler_norm_sum _ _ _) _.
  by apply: ler_sum => i _; rewrite distrC.
have md0 : 0 <= m%:R * d by apply: le_trans QS.
have g0 : 0 <= 2%:R * m%:R * gam * Q.
  by rewrite !mulr_ge0 ?ler0n ?gam_ge0.
have [e|ne] := eqVneq S 0.
  apply: (@le_trans _ _ (2%:R * m%:R * d)); last by rewrite ler_addr.
  have -> : \sum_(i < m) `|Q * phat i - q i| = Q.
    by apply: eq_bigr => i _; rewrite S0_phat // mulr0 sub0r normrN ger0_norm.
  move: QS; rewrite e subr0 ger0_norm // => QS; apply: le_trans QS _.
  by rewrite -[2%:R * _ * _]mulrA [X in _ <= X]mulr_natl mulr2n ler_addl.
have S0 : 0 < S by rewrite lt_def ne S_ge0.
have T i : (i < m)%N -> `|Q * phat i - q i| <=
    2%:R * gam * Q + `|Q - S| * (w`_i / S) + `|w`_i - q i|.
  move=> im; have wi0 : 0 <= w`_i / S by rewrite divr_ge0 ?(ltW S0) // (allP w0) // mem_nth.
  have -> : Q * phat i - q i = Q * (phat i - w`_i / S) + (Q - S) * (w`_i / S) + (w`_i - q i).
    have -> : (Q - S) * (w`_i / S) = Q * (w`_i / S) - w`_i by rewrite mulrBl [S * _]mulrC divfK.
    by ring.
  apply: le_trans (ler_norm_add _ _) _; apply: ler_add => //.
  apply: le_trans (ler_norm_add _ _) _; apply: ler_add; rewrite normrM.
    by rewrite (ger0_norm Q0) mulrC; apply: ler_wpmul2r => //; apply: phat_near.
  by rewrite (ger0_norm wi0).
apply: (@le_trans _ _ (\sum_(i < m) (2%:R * gam * Q + `|Q - S| * (w`_i / S) + `|w`_i - q i|))).
  by apply: ler_sum => i _; apply: T.
rewrite !big_split /= sumr_const card_ord -mulr_sumr -mulr_suml -SE divff // mulr1.
have -> : 2%:R * gam * Q *+ m = 2%:R * m%:R * gam * Q.
  by rewrite -mulr_natl; move: (m%:R) (gam) => y z; ring.
rewrite -addrA ler_add2l -mulrA [X in _ <= X]mulr_natl mulr2n; exact: ler_add.
Qed.

(* averages over the draws *)
Lemma draw_average (V : nat -> R) : (forall i, (m <= i)%N -> V i = 0) ->
  (\sum_(k < N) V (idx k)) / N%:R = \sum_(i < m) phat i * V i.
Proof.
move=> V0; rewrite mulr_suml /phat.
under [RHS]eq_bigr => i _ do rewrite natr_sum mulrAC mulr_suml mulr_suml.
rewrite exchange_big /=; apply: eq_bigr => k _.
case: (ltnP (idx k) m) => h; last first.
  rewrite V0 // mul0r big1 // => i _; case: eqP => [e|_]; last by rewrite !mul0r.
  by have := ltn_ord i; rewrite -e ltnNge h.
rewrite (bigD1 (Ordinal h)) //= eqxx mul1r big1 ?addr0 // => i ne.
rewrite -val_eqE /= in ne.
by rewrite eq_sym (negbTE ne) !mul0r.
Qed.

Lemma phat_sum : \sum_(i < m) phat i <= 1.
Proof.
rewrite (eq_bigr (fun i : 'I_m => phat i * (i < m)%N%:R)); last by move=> i _; rewrite ltn_ord mulr1.
rewrite -(@draw_average (fun i => (i < m)%N%:R)); last by move=> i; rewrite leqNgt => /negbTE ->.
rewrite ler_pdivr_mulr ?NR // mul1r -[X in _ <= X%:R](card_ord N) -sum1_card natr_sum.
by apply: ler_sum => k _; rewrite ler_nat leq_b1.
Qed.

End Weights.
End Sel.
