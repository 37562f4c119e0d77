(* The choice of numpy with rounded probabilities, sums and quotients. *)
From mathcomp Require Import all_ssreflect all_algebra complex.
From mathcomp Require Import ring zify.
From Verif Require Import Base SpecProb ProbMath ModelGcc ModelGccB ProofSel ModelFloat SpecFloat SpecFloatGcc ProofFloat
  ModelFloatGcc ModelFloatGccB SpecFloatGccB ProofFloatSel ProofFloatSub ProofFloatGcc1.
Set Implicit Arguments.
Unset Strict Implicit.
Unset Printing Implicit Defensive.
Import Order.Theory GRing.Theory Num.Theory.
Local Open Scope ring_scope.

(* a selection of an index from N equally likely numbers, compared with weights w *)
Section Selection.
Variable R : rcfType.
Variables (N m : nat) (sl : nat -> option nat).
Hypothesis N0 : (0 < N)%N.

Definition ph (i : nat) : R := (\sum_(k < N) (sl k == Some i))%N%:R / N%:R.

Lemma ph_ge0 i : 0 <= ph i.
Proof. by rewrite /ph divr_ge0 ?ler0n. Qed.

Lemma ph_average (V : nat -> R) (W : option nat -> R) :
  (forall i, (i < m)%N -> W (Some i) = V i) -> (forall i, (m <= i)%N -> W (Some i) = 0) -> W None = 0 ->
  (\sum_(k < N) W (sl k)) / N%:R = \sum_(i < m) ph i * V i.
Proof.
move=> W1 W2 W3; rewrite mulr_suml /ph.
under [RHS]eq_bigr => i _ do rewrite natr_sum mulrAC mulr_suml mulr_suml.
rewrite exchange_big /=; apply: eq_bigr => k _.
case E: (sl k) => [i|]; last by rewrite W3 mul0r big1 // => i _; rewrite !mul0r.
case: (ltnP i m) => h; last first.
  rewrite W2 // mul0r big1 // => j _; case: eqP => [[e]|_]; last by rewrite !mul0r.
  by have := ltn_ord j; rewrite -e ltnNge h.
rewrite (bigD1 (Ordinal h)) //= eqxx mul1r W1 // big1 ?addr0 // => j ne.
rewrite -val_eqE /= in ne; have -> : (Some i == Some (nat_of_ord j)) = false.
  by apply/eqP => -[e]; rewrite e eqxx in ne.
by rewrite !mul0r.
Qed.

Lemma ph_sum : \sum_(i < m) ph i <= 1.
Proof.
rewrite (eq_bigr (fun i : 'I_m => ph i * 1)); last by move=> i _; rewrite mulr1.
rewrite -(@ph_average (fun=> 1) (fun o => if o is Some i then (i < m)%N%:R else 0)) //; first last.
- by move=> i; rewrite leqNgt => /negbTE ->.
- by move=> i ->.
rewrite ler_pdivr_mulr ?ltr0n // mul1r -[X in _ <= X%:R](card_ord N) -sum1_card natr_sum.
by apply: ler_sum => k _; case: (sl k) => [i|]; rewrite ?ler01 // ler_nat leq_b1.
Qed.

Definition selo (i : nat) : nat := \sum_(k < N) (if sl k is Some j then (j < i)%N else false).

Lemma seloS i : selo i.+1 = (selo i + \sum_(k < N) (sl k == Some i))%N.
Proof.
rewrite /selo -big_split; apply: eq_bigr => k _ /=; case: (sl k) => [j|] //=.
have -> : (Some j == Some i) = (j == i) by [].
by rewrite ltnS leq_eqVlt; case: ltngtP.
Qed.

Variables (w : seq R) (g : R).
Hypothesis sw : size w = m.
Hypothesis w0 : all (fun x => 0 <= x) w.
Hypothesis g0 : 0 <= g.
Notation S := (\sum_(x <- w) x).
Hypothesis zero : S = 0 -> forall k, sl k = None.
Hypothesis near_sel : 0 < S -> forall i, (i <= m)%N -> `|(selo i)%:R / N%:R - cum w i / S| <= g.

Lemma ph_near i : (i < m)%N -> 0 < S -> `|ph i - w`_i / S| <= 2%:R * g.
Proof.
move=> im S0; rewrite /ph.
have -> : (\sum_(k < N) (sl k == Some i))%N%:R = (selo i.+1)%:R - (selo i)%:R :> R.
  by rewrite seloS natrD addrC addKr.
have -> : w`_i = cum w i.+1 - cum w i by rewrite cumS addrC addKr.
rewrite !mulrBl; have h1 := near_sel S0 im; have h2 := near_sel S0 (ltnW im).
set a := _ / N%:R in h1 *; set b := _ / N%:R in h2 *.
have -> : a - b - (cum w i.+1 / S - cum w i / S) = (a - cum w i.+1 / S) - (b - cum w i / S) by ring.
apply: le_trans (ler_norm_sub _ _) _; rewrite mulr_natl mulr2n; exact: ler_add.
Qed.

Lemma ph_zero i : S = 0 -> ph i = 0.
Proof. by move=> e; rewrite /ph big1 ?mul0r // => k _; rewrite (zero e). Qed.

Lemma ph_bound (q : nat -> R) (d : R) : (forall i, 0 <= q i) ->
  (forall i, (i < m)%N -> `|w`_i - q i| <= d) ->
  \sum_(i < m) `|(\sum_(j < m) q j) * ph i - q i| <=
    2%:R * m%:R * g * (\sum_(j < m) q j) + 2%:R * m%:R * d.
Proof.
set Q := \sum_(j < m) q j; move=> q0 h.
have Q0 : 0 <= Q by apply: sumr_ge0.
have SE : S = \sum_(i < m) w`_i by rewrite (big_nth 0) big_mkord sw.
have md : \sum_(i < m) `|w`_i - q i| <= m%:R * d.
  apply: (@le_trans _ _ (\sum_(i < m) d)); first by apply: ler_sum => i _; apply: h.
  by rewrite sumr_const card_ord mulr_natl.
have QS : `|Q - S| <= m%:R * d.
  apply: le_trans md; rewrite SE -sumrB; apply: le_trans (ler_norm_sum _ _ _) _.
  by apply: ler_sum => i _; rewrite distrC.
have md0 : 0 <= m%:R * d by apply: le_trans QS.
have g0' : 0 <= 2%:R * m%:R * g * Q by rewrite !mulr_ge0 ?ler0n.
have [e|ne] := eqVneq S 0.
  apply: (@le_trans _ _ (2%:R * m%:R * d)); last by rewrite ler_addr.
  have -> : \sum_(i < m) `|Q * ph i - q i| = Q.
    by apply: eq_bigr => i _; rewrite ph_zero // mulr0 sub0r normrN ger0_norm.
  move: QS; rewrite e subr0 ger0_norm // => QS; apply: le_trans QS _.
  by rewrite -[2%:R * _ * _]mulrA [X in _ <= X]mulr_natl mulr2n ler_addl.
have S0 : 0 < S by rewrite lt_def ne S_ge0.
have T i : (i < m)%N -> `|Q * ph i - q i| <=
    2%:R * g * Q + `|Q - S| * (w`_i / S) + `|w`_i - q i|.
  move=> im; have wi0 : 0 <= w`_i / S by rewrite divr_ge0 ?(ltW S0) // (allP w0) // mem_nth ?sw.
  have -> : Q * ph i - q i = Q * (ph i - w`_i / S) + (Q - S) * (w`_i / S) + (w`_i - q i).
    have -> : (Q - S) * (w`_i / S) = Q * (w`_i / S) - w`_i by rewrite mulrBl [S * _]mulrC divfK.
    by ring.
  apply: le_trans (ler_norm_add _ _) _; apply: ler_add => //.
  apply: le_trans (ler_norm_add _ _) _; apply: ler_add; rewrite normrM.
    by rewrite (ger0_norm Q0) mulrC; apply: ler_wpmul2r => //; apply: ph_near.
  by rewrite (ger0_norm wi0).
apply: (@le_trans _ _ (\sum_(i < m) (2%:R * g * Q + `|Q - S| * (w`_i / S) + `|w`_i - q i|))).
  by apply: ler_sum => i _; apply: T.
rewrite !big_split /= sumr_const card_ord -mulr_sumr -mulr_suml -SE divff // mulr1.
have -> : 2%:R * g * Q *+ m = 2%:R * m%:R * g * Q.
  by rewrite -mulr_natl; move: (m%:R) => y; ring.
rewrite -addrA ler_add2l -mulrA [X in _ <= X]mulr_natl mulr2n; exact: ler_add.
Qed.

End Selection.

Section Choice.
Variable R : rcfType.
Variables (u : R) (B : arith R) (f_sum f_check : seq R -> R) (f_search : R -> seq R -> nat) (N : nat).
Hypothesis u0 : 0 <= u.
Hypothesis accB : accurate u B.
Hypothesis acc_sum : accurate_sum u f_sum.
Hypothesis acc_check : accurate_sum u f_check.
Hypothesis srch : right_search f_search.
Hypothesis N0 : (0 < N)%N.
Notation near := (near u).
Variable w : seq R.
Hypothesis w0 : all (fun x => 0 <= x) w.
Notation m := (size w).
Hypothesis small : (9 * m + 4)%:R * u <= (2%:R ^+ 27)^-1.
Notation S := (\sum_(x <- w) x).
Notation p := (fl_normalised B f_sum w).
Notation y := ((1 + u) ^+ (9 * m + 4) - 1).

Lemma p27 : 0 < 2%:R ^+ 27 :> R. Proof. by rewrite exprn_gt0 ?ltr0n. Qed.

Lemma y_small : y <= choice_tol R.
Proof.
have h : (9 * m + 4)%:R * u <= 2%:R^-1.
  apply: le_trans small _; rewrite lef_pinv ?posrE ?p27 ?ltr0n // -[X in X <= _]expr1.
  by rewrite ler_eexpn2l ?ltr1n.
apply: le_trans (E_linear u0 h) _; rewrite /choice_tol -mulrA.
apply: le_trans (ler_wpmul2l _ small) _; first by rewrite ler0n.
by rewrite exprS invfM mulrA divff ?mul1r // pnatr_eq0.
Qed.

Lemma tol_small : choice_tol R <= 2%:R^-1.
Proof.
rewrite /choice_tol lef_pinv ?posrE ?exprn_gt0 ?ltr0n // -[X in X <= _]expr1.
by rewrite ler_eexpn2l ?ltr1n.
Qed.

Lemma y_half : y <= 2%:R^-1.
Proof. exact: le_trans y_small tol_small. Qed.

Lemma y_ge0 : 0 <= y. Proof. exact: E0. Qed.

Lemma pow_half k : (k <= 9 * m + 4)%N -> (1 + u) ^+ k <= 3%:R / 2%:R.
Proof.
move=> kl; apply: le_trans (E_le u0 kl) _.
have -> : 3%:R / 2%:R = 2%:R^-1 + 1 :> R by field.
by rewrite -ler_subl_addr; exact: y_half.
Qed.

Lemma near_nonneg k (v x : R) : (k <= 9 * m + 4)%N -> near k v v x -> 0 <= x.
Proof.
move=> kl H; have v0 := near_ge0 H; case: H => _; rewrite ler_norml => /andP[h _].
have : (1 + u) ^+ k - 1 <= 1.
  rewrite ler_subl_addr; apply: le_trans (pow_half kl) _.
  by rewrite ler_pdivr_mulr ?ltr0n // -[1 + 1]/(2%:R : R) -natrM ler_nat.
move=> h1; rewrite -(ler_add2r (- v)); apply: le_trans h; rewrite add0r ler_opp2.
by rewrite -[X in _ <= X]mul1r ler_wpmul2r.
Qed.

Lemma Sh_nearS : near m S S (f_sum w).
Proof.
have := @near_sum R u f_sum u0 acc_sum 0 _ w id id id _; rewrite add0n map_id; apply=> x xw.
by apply: near_exact; rewrite // ger0_norm // (allP w0).
Qed.

Lemma size_p : size p = m. Proof. by rewrite size_map. Qed.

(* ---- all weights vanish ---- *)
Lemma fl_choice_zero : S = 0 -> fl_np_choice B f_check f_search N p = Ret (Err ValueError).
Proof.
move=> e; have Sh0 : f_sum w = 0.
  by have [_] := Sh_nearS; rewrite e subr0 mulr0 normr_le0 => /eqP.
have pE : p = nseq m 0.
  by rewrite /fl_normalised Sh0 eqxx; elim: (w) => //= a l ->.
rewrite /fl_np_choice pE; suff -> : choice_tol R < `|f_sub B (f_check (nseq m 0)) 1| by rewrite orbT.
have z (V : R -> R) : V 0 = 0 -> \sum_(x <- nseq m 0) V x = 0.
  by move=> V0; rewrite big_nseq V0; elim: (m) => //= n ->; rewrite addr0.
have -> : f_check (nseq m 0) = 0.
  have := acc_check (nseq m 0); rewrite (z (fun x => x)) // (z (fun x => `|x|)) ?normr0 //.
  by rewrite mulr0 subr0 normr_le0 => /eqP.
have := acc_sub accB 0 1; rewrite sub0r normrN1 mulr1 => h.
have u4 : u <= 2%:R^-1 * choice_tol R.
  apply: (@le_trans _ _ ((9 * m + 4)%:R * u)).
    by rewrite -[X in X <= _]mul1r ler_wpmul2r // ler1n addn_gt0 orbT.
  by apply: le_trans small _; rewrite exprS invfM /choice_tol.
have t0 : 0 < choice_tol R by rewrite invr_gt0 exprn_gt0 ?ltr0n.
apply: (@lt_le_trans _ _ (1 - u)).
  rewrite ltr_subr_addl; apply: (@le_lt_trans _ _ (2%:R^-1 * choice_tol R + choice_tol R)).
    by rewrite ler_add2r.
  apply: (@le_lt_trans _ _ (2%:R^-1 * 2%:R^-1 + 2%:R^-1)).
    by apply: ler_add; rewrite ?tol_small // ler_wpmul2l ?invr_ge0 ?ler0n // tol_small.
  have -> : 2%:R^-1 * 2%:R^-1 + 2%:R^-1 = 3%:R / 4%:R :> R by field.
  by rewrite ltr_pdivr_mulr ?ltr0n // mul1r ltr_nat.
rewrite ler_subl_addr; have := ler_norm_sub (f_sub B 0 1) (f_sub B 0 1 - -1).
rewrite opprB addrCA subrr addr0 normrN1 => h1; apply: le_trans h1 _; exact: ler_add.
Qed.

(* ---- a positive sum ---- *)
Section Positive.
Hypothesis S0 : 0 < S.
Let Sn : S != 0. Proof. by rewrite gt_eqF. Qed.

Lemma p_near i : (i < m)%N -> near (2 * m + 1) (w`_i / S) (w`_i / S) p`_i.
Proof.
move=> im; have wi0 : 0 <= w`_i by rewrite (allP w0) // mem_nth.
have [_ hS] := Sh_nearS; rewrite -{2}(gtr0_norm S0) in hS.
have nw : near 0 w`_i w`_i w`_i by apply: near_exact; rewrite // ger0_norm.
have m3 : (1 + u) ^+ m <= 3%:R / 2%:R by apply: pow_half; lia.
have [h1 h2] := near_fdivK u0 accB m3 Sn hS nw.
rewrite /fl_normalised (nth_map 0) // (negPf h1); move: h2; rewrite (gtr0_norm S0).
by apply: near_k => //; lia.
Qed.

Lemma p_nn : all (fun x => 0 <= x) p.
Proof.
apply/(all_nthP 0) => i; rewrite size_p => im.
by apply: near_nonneg (p_near im); lia.
Qed.

Lemma psum_nearS j : (j <= m)%N -> near (2 * m + 1 + j) (cum w j / S) (cum w j / S) (fl_partial_sum B p j).
Proof.
elim: j => [|j IH] jm.
  by rewrite cum0 mul0r /fl_partial_sum take0; apply: near_exact; rewrite ?normr0.
rewrite /fl_partial_sum (take_nth 0) ?size_p // -cats1 foldl_cat /= -/(fl_partial_sum B p j).
rewrite cumS mulrDl addnS; apply: near_add => //; first exact: IH (ltnW jm).
by apply: near_k (p_near jm) => //; lia.
Qed.

Lemma cdf_nearS j : (j < m)%N ->
  near (9 * m + 4) (cum w j.+1 / S) (cum w j.+1 / S) (fl_choice_cdf B p)`_j.
Proof.
move=> jm; rewrite /fl_choice_cdf size_p (nth_map 0%N) ?size_iota // nth_iota // add0n.
have [_ h1] := psum_nearS (leqnn m); rewrite cum_all divff // -[X in _ * X](normr1 R) in h1.
have m3 : (1 + u) ^+ (2 * m + 1 + m) <= 3%:R / 2%:R by apply: pow_half; lia.
have [_] := near_fdivK u0 accB m3 (oner_neq0 _) h1 (psum_nearS jm).
by rewrite normr1 !divr1; apply: near_k => //; lia.
Qed.

Lemma size_cdf : size (fl_choice_cdf B p) = m.
Proof. by rewrite size_map size_iota size_p. Qed.

Definition cidx (k : nat) : nat := f_search (k%:R / N%:R) (fl_choice_cdf B p).

Lemma fl_choice_pos : fl_np_choice B f_check f_search N p = Int N (fun k => Ret (Ok (cidx k))).
Proof.
rewrite /fl_np_choice.
have -> : has (fun x => x < 0) p = false.
  by apply/negbTE; rewrite -all_predC; apply: sub_all p_nn => x /=; rewrite -leNgt.
suff -> : (choice_tol R < `|f_sub B (f_check p) 1|) = false by [].
apply/negbTE; rewrite -leNgt.
have h : near (2 * m + 1 + m) 1 1 (f_check p).
  have := @near_sum R u f_check u0 acc_check (2 * m + 1) _ (iota 0 m) (fun i => w`_i / S) (fun i => w`_i / S) (fun i => p`_i) _.
  have -> : [seq p`_i | i <- iota 0 m] = p by rewrite -{1}size_p; exact: mkseq_nth.
  rewrite size_iota -mulr_suml.
  have -> : \sum_(i <- iota 0 m) w`_i = S by rewrite [RHS](big_nth 0) /index_iota subn0.
  by rewrite divff //; apply=> i; rewrite mem_iota => /= im; apply: p_near.
apply: le_trans y_small.
have a := acc_sub accB (f_check p) 1; case: h => _ h; rewrite mulr1 in h.
have -> : f_sub B (f_check p) 1 = (f_sub B (f_check p) 1 - (f_check p - 1)) + (f_check p - 1) by rewrite subrK.
apply: le_trans (ler_norm_add _ _) _; apply: le_trans (ler_add a (lexx _)) _.
rewrite -[X in _ + X]mul1r -mulrDl [u + 1]addrC.
apply: le_trans (ler_wpmul2l _ h) _; first by rewrite addr_ge0 ?ler01.
rewrite mulrBr mulr1 -exprS; apply: ler_sub; first by apply: E_le => //; lia.
by rewrite ler_addl.
Qed.

Lemma cum_frac i : (i <= m)%N -> 0 <= cum w i / S <= 1.
Proof.
move=> im; rewrite divr_ge0 ?cum_nn ?(ltW S0) //= ler_pdivr_mulr // mul1r -cum_all.
exact: cum_mono.
Qed.

Lemma cidx_upper i k : (i <= m)%N -> (cidx k < i)%N -> k%:R / N%:R < cum w i / S + y.
Proof.
move=> im lt; have [_ _] := srch (k%:R / N%:R) (fl_choice_cdf B p); rewrite -/(cidx k) size_cdf.
have cm : (cidx k < m)%N by apply: leq_trans lt im.
move=> /(_ cm) h; apply: lt_le_trans h _.
have [_] := cdf_nearS cm; rewrite ler_norml => /andP[_ h]; rewrite ler_subl_addr in h.
apply: le_trans h _; rewrite addrC; apply: ler_add.
  by apply: ler_wpmul2r; [rewrite invr_ge0 ltW|apply: cum_mono].
rewrite -[X in _ <= X]mulr1; apply: ler_wpmul2l; first exact: y_ge0.
by have /andP[] := cum_frac cm.
Qed.

Lemma cidx_lower i k : (i <= m)%N -> (i <= cidx k)%N -> cum w i / S - y <= k%:R / N%:R.
Proof.
move=> im le; have [cm h _] := srch (k%:R / N%:R) (fl_choice_cdf B p); rewrite -/(cidx k) size_cdf in cm h.
case: (posnP i) => [->|i0].
  rewrite cum0 mul0r sub0r; apply: (@le_trans _ _ 0); first by rewrite oppr_le0 y_ge0.
  by rewrite divr_ge0 ?ler0n.
have c0 : (0 < cidx k)%N by apply: leq_trans i0 le.
apply: le_trans (h c0); case E: (cidx k) c0 le cm => [//|c] _ le cm.
have [_] := cdf_nearS cm; rewrite ler_norml => /andP[h1 _]; rewrite ler_subr_addr in h1.
apply: le_trans h1; rewrite addrC; apply: ler_add; last first.
  by apply: ler_wpmul2r; [rewrite invr_ge0 ltW|apply: cum_mono].
rewrite ler_opp2 -[X in _ <= X]mulr1; apply: ler_wpmul2l; first exact: y_ge0.
by have /andP[] := cum_frac cm.
Qed.

End Positive.

(* the index chosen by draw number k *)
Definition chosen (k : nat) : option nat := if S == 0 then None else Some (cidx k).

Lemma chosen_near : 0 < S -> forall i, (i <= m)%N ->
  `|(selo N chosen i)%:R / N%:R - cum w i / S| <= choice_error u N m.
Proof.
move=> S0 i im; have NR : 0 < N%:R :> R by rewrite ltr0n.
have sE : selo N chosen i = (\sum_(k < N) (cidx k < i)%N)%N.
  by rewrite /selo /chosen gt_eqF.
set f := cum w i / S; have /andP[f0 f1] := cum_frac S0 im; rewrite -/f in f0 f1.
rewrite ler_norml; apply/andP; split.
- rewrite ler_subr_addl ler_pdivl_mulr //.
  apply: (@le_trans _ _ (N%:R * (f - y))).
    rewrite mulrC; apply: ler_wpmul2l; first exact: ltW.
    rewrite ler_add2l ler_opp2 /choice_error.
    by rewrite ler_addl invr_ge0 ltW.
  apply: (@le_trans _ _ (below (N%:R * (f - y)) N)%:R).
    apply: below_ge; rewrite -[X in _ <= X]mulr1 ler_wpmul2l ?ler0n // ler_subl_addr.
    by apply: le_trans f1 _; rewrite ler_addl y_ge0.
  rewrite ler_nat sE; apply: leq_sum => k _; case: (ltP _ (N%:R * _)) => //= h.
  case: (ltnP (cidx k) i) => // le; have := cidx_lower S0 im le.
  by rewrite -/f ler_pdivl_mulr // [_ * N%:R]mulrC leNgt h.
- rewrite ler_subl_addl ler_pdivr_mulr //.
  apply: (@le_trans _ _ (N%:R * (f + y) + 1)); last first.
    suff -> : (f + choice_error u N m) * N%:R = N%:R * (f + y) + 1 by [].
    by rewrite /choice_error; move: y (gt_eqF NR) => z /negbT nz; field.
  apply: (@le_trans _ _ (below (N%:R * (f + y)) N)%:R).
    rewrite ler_nat sE; apply: leq_sum => k _; case: (ltnP (cidx k) i) => // le.
    have := cidx_upper S0 im le; rewrite -/f ltr_pdivr_mulr // [_ * N%:R]mulrC => ->.
    by [].
  apply: below_le; apply: (@le_trans _ _ 0); first by rewrite oppr_le0 ler01.
  by rewrite mulr_ge0 ?ler0n // addr_ge0 // y_ge0.
Qed.

Lemma choice_error_ge0 : 0 <= choice_error u N m.
Proof. by rewrite addr_ge0 ?y_ge0 // invr_ge0 ler0n. Qed.

End Choice.
