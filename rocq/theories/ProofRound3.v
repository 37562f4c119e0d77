(* Existence of roundings to p binary digits. *)
From mathcomp Require Import all_ssreflect all_algebra.
From mathcomp Require Import ring zify.
From Verif Require Import ModelRound SpecRound.
Set Implicit Arguments.
Unset Strict Implicit.
Unset Printing Implicit Defensive.
Import Order.TTheory GRing.Theory Num.Theory.
Local Open Scope ring_scope.

Section Binary.
Variable R : rcfType.
Hypothesis arch : Num.archimedean_axiom R.
Variable p : nat.
Hypothesis p0 : (0 < p)%N.
Notation two := (2%:R : R).

Lemma two_gt0 : 0 < two. Proof. by rewrite ltr0n. Qed.
Lemma two_neq0 : two != 0. Proof. by rewrite pnatr_eq0. Qed.

Lemma pow2_gt0 (e : int) : 0 < two ^ e. Proof. exact: exprz_gt0 two_gt0. Qed.

Lemma pow2S (e : int) : two ^ (e + 1) = two * two ^ e.
Proof. by rewrite expfzDr ?two_neq0 // expr1z mulrC. Qed.

Lemma expo_ge1 n (X : R) : 1 <= X -> X < two ^+ n -> exists e : int, two ^ e <= X < two ^ (e + 1).
Proof.
elim: n => [|n IH] X1 h; first by move: h; rewrite expr0 ltNge X1.
have [hn|hn] := boolP (X < two ^+ n); first exact: IH.
by exists (Posz n); rewrite -leNgt in hn; rewrite hn /= -PoszD addn1.
Qed.

Lemma expo_lt1 n (X : R) : X < 1 -> two ^- n <= X -> exists e : int, two ^ e <= X < two ^ (e + 1).
Proof.
elim: n => [|n IH] X1 h; first by move: h; rewrite expr0 invr1 leNgt X1.
have [hn|hn] := boolP (two ^- n <= X); first exact: IH.
exists (- (Posz n.+1)); rewrite -ltNge in hn.
have -> : - Posz n.+1 + 1 = - Posz n by lia.
by rewrite -!exprnN h hn.
Qed.

Lemma expo (X : R) : 0 < X -> exists e : int, two ^ e <= X < two ^ (e + 1).
Proof.
have big (Y : R) : exists n, Y < two ^+ n.
  have [n hn] := arch Y; exists n; apply: le_lt_trans (ler_norm Y) _; apply: lt_trans hn _.
  by rewrite -natrX ltr_nat ltn_expl.
move=> X0; have [X1|X1] := boolP (1 <= X); first by have [n hn] := big X; exact: expo_ge1 X1 hn.
rewrite -ltNge in X1; have [n hn] := big X^-1.
apply: (expo_lt1 X1 (n := n)); rewrite -[X in _ <= X]invrK lef_pinv ?posrE ?exprn_gt0 ?two_gt0 ?invr_gt0 //.
exact: ltW.
Qed.

Lemma nearest n (q : R) : 0 <= q -> q < n%:R -> exists k : nat, `|k%:R - q| <= two^-1.
Proof.
elim: n => [|n IH] q0 h; first by move: h; rewrite ltNge q0.
have [hn|hn] := boolP (q < n%:R); first exact: IH.
rewrite -leNgt in hn.
have h2 : two^-1 + two^-1 = 1 by rewrite -mulr2n -[_ *+ 2]mulr_natl mulfV ?two_neq0.
have [hl|hl] := boolP (q <= n%:R + two^-1).
  by exists n; rewrite distrC ger0_norm ?subr_ge0 // ler_subl_addl.
exists n.+1; have h0 : 0 <= n.+1%:R - q by rewrite subr_ge0 ltW.
rewrite ger0_norm // ler_subl_addl.
have -> : n.+1%:R = n%:R + two^-1 + two^-1 by rewrite -addrA h2 -addn1 natrD.
by rewrite ler_add2r ltW // ltNge.
Qed.

Definition bval (t : bool * nat * int) : R := let: (s, k, e) := t in (-1) ^+ s * k%:R * two ^ e.
Definition bok (x : R) (t : bool * nat * int) : bool :=
  let: (s, k, e) := t in
  [&& (2 ^ p <= 2 * k <= 2 * 2 ^ p)%N,
      (2 ^ p)%:R * two ^ e <= two * `|x| <= two * (2 ^ p)%:R * two ^ e
    & `|bval t - x| <= two^-1 * two ^ e].

Lemma bok_ex x : x != 0 -> exists t, bok x t.
Proof.
move=> x0; have X0 : 0 < `|x| by rewrite normr_gt0.
have [e0 /andP[h1 h2]] := expo X0.
pose e := e0 + 1 - Posz p.
have Ee : (2 ^ p)%:R * two ^ e = two * two ^ e0.
  rewrite natrX -[two ^+ p]/(two ^ (Posz p)) -expfzDr ?two_neq0 // -pow2S; congr (_ ^ _).
  by rewrite /e; lia.
have hl : (2 ^ p)%:R * two ^ e <= two * `|x| by rewrite Ee ler_pmul2l ?two_gt0.
have hu : two * `|x| <= two * (2 ^ p)%:R * two ^ e by rewrite -mulrA Ee ler_pmul2l ?two_gt0 // -pow2S ltW.
pose q := `|x| / two ^ e.
have q0 : 0 <= q by rewrite divr_ge0 // ltW // pow2_gt0.
have Xq : `|x| = q * two ^ e by rewrite /q mulfVK // gt_eqF // pow2_gt0.
have [n hn] := arch q; rewrite ger0_norm // in hn.
have [k hk] := nearest q0 hn.
exists (x < 0, k, e); rewrite /bok hl hu /=.
have pp : exists m, (2 ^ p = 2 * m)%N by exists (2 ^ p.-1)%N; rewrite -expnS prednK.
have ql : (2 ^ p)%:R <= two * q.
  by move: hl; rewrite Xq mulrA ler_pmul2r // pow2_gt0.
have qu : two * q <= two * (2 ^ p)%:R.
  by move: hu; rewrite Xq mulrA ler_pmul2r // pow2_gt0.
move: (hk); rewrite ler_distl => /andP[k1 k2].
have k1' : two * k%:R <= two * q + 1.
  have -> : two * q + 1 = two * (q + two^-1) by rewrite mulrDr mulfV ?two_neq0.
  by rewrite ler_pmul2l ?two_gt0.
have k2' : two * q <= two * k%:R + 1.
  have -> : two * k%:R + 1 = two * (k%:R + two^-1) by rewrite mulrDr mulfV ?two_neq0.
  by rewrite ler_pmul2l ?two_gt0 // -ler_subl_addr.
have b1 : (2 ^ p <= 2 * k + 1)%N.
  by rewrite -(ler_nat R) natrD natrM; apply: le_trans k2'.
have b2 : (2 * k <= 2 * 2 ^ p + 1)%N.
  by rewrite -(ler_nat R) natrD !natrM; apply: le_trans k1' _; rewrite ler_add2r.
have -> /= : (2 ^ p <= 2 * k <= 2 * 2 ^ p)%N.
  by case: pp => m; move: b1 b2; clear; generalize (2 ^ p)%N => P; lia.
rewrite [X in _ - X]realEsign ?num_real // -mulrA -mulrBr normrM normrX normrN1 expr1n mul1r.
rewrite Xq -mulrBl normrM (gtr0_norm (pow2_gt0 e)) ler_pmul2r ?pow2_gt0 //.
Qed.

Definition bround (x : R) : R :=
  match Bool.bool_dec (x == 0) true with
  | left _ => 0
  | right h => bval (xchoose (bok_ex (introN idP h)))
  end.

Lemma bround_ok x : binary_rounding p x (bround x).
Proof.
rewrite /bround; case: Bool.bool_dec => h; first by left; split=> //; apply/eqP.
right; move: (xchooseP (bok_ex (introN idP h))).
move: (xchoose _) => [[s k] e] /and3P[h1 h2 h3]; by exists s, k, e.
Qed.

Lemma binary_error x y : binary_rounding p x y -> `|y - x| <= (two ^+ p)^-1 * `|x|.
Proof.
case=> [[-> ->]|[s [k [e [-> hk /andP[hl _] hd]]]]]; first by rewrite subrr normr0 mulr0.
apply: le_trans hd _; rewrite natrX in hl.
rewrite -[X in _ <= X](mulKf two_neq0) ler_pmul2l ?invr_gt0 ?two_gt0 // mulrCA.
by rewrite [X in _ <= X]mulrC ler_pdivl_mulr ?exprn_gt0 ?two_gt0 // [X in X <= _]mulrC.
Qed.

End Binary.
