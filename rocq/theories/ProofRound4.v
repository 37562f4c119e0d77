(* The compensated sum is accurate. *)
From mathcomp Require Import all_ssreflect all_algebra.
From mathcomp Require Import ring zify.
From Verif Require Import SpecFloatGcc ModelRound SpecRound ProofFloat.
Set Implicit Arguments.
Unset Strict Implicit.
Unset Printing Implicit Defensive.
Import Order.TTheory GRing.Theory Num.Theory.
Local Open Scope ring_scope.

Section Kahan.
Variable R : rcfType.
Variables (d u : R) (rnd : R -> R).
Hypothesis d0 : 0 <= d.
Hypothesis d12 : 12%:R * d <= 1.
Hypothesis du : 10%:R * d <= u.
Hypothesis Hr : forall x, `|rnd x - x| <= d * `|x|.

Lemma u0' : 0 <= u.
Proof. by apply: le_trans du; rewrite mulr_ge0 ?ler0n. Qed.

Lemma add3 (a b c A B C : R) : `|a| <= A -> `|b| <= B -> `|c| <= C -> `|a + b + c| <= A + B + C.
Proof.
move=> ha hb hc; apply: le_trans (ler_norm_add _ _) _; apply: ler_add hc.
by apply: le_trans (ler_norm_add _ _) _; apply: ler_add.
Qed.

Lemma add2 (a b A B : R) : `|a| <= A -> `|b| <= B -> `|a + b| <= A + B.
Proof. by move=> ha hb; apply: le_trans (ler_norm_add _ _) _; apply: ler_add. Qed.

Lemma rnd_err x X : `|x| <= X -> `|rnd x - x| <= d * X.
Proof. by move=> h; apply: le_trans (Hr x) _; apply: ler_wpmul2l. Qed.

Lemma rnd_norm x X : `|x| <= X -> `|rnd x| <= X + d * X.
Proof.
move=> h; have -> : rnd x = x + (rnd x - x) by ring.
exact: add2 h (rnd_err h).
Qed.

Lemma kahan_err l s c S a W : 1 <= W -> `|S| <= a -> `|s - S| <= (W - 1) * a -> `|c| <= 6%:R * d * W * a ->
  `|kahan rnd s c l - (S + \sum_(x <- l) x)| <= (W * (1 + u) ^+ size l - 1) * (a + \sum_(x <- l) `|x|).
Proof.
elim: l s c S a W => [|x l IH] s c S a W W1 Sa hs hc; first by rewrite !big_nil !addr0 mulr1.
rewrite /= !big_cons !addrA exprS mulrA.
set y := rnd (x - c); set t := rnd (s + y).
have a0 : 0 <= a by apply: le_trans Sa.
have x0 := normr_ge0 x.
have W0 : 0 <= W by apply: le_trans W1.
set a' := a + `|x|; set P := W * a'.
have P0 : 0 <= P by rewrite mulr_ge0 // addr_ge0.
have dP0 : 0 <= d * P by rewrite mulr_ge0.
have WaP : W * a <= P by rewrite ler_wpmul2l // ler_addl.
have dP : 12%:R * (d * P) <= P by rewrite mulrA -[X in _ <= X]mul1r ler_wpmul2r.
have hs1 : `|s| <= P.
  have -> : s = S + (s - S) by ring.
  apply: le_trans (add2 Sa hs) _; apply: le_trans WaP.
  by have -> : a + (W - 1) * a = W * a by ring.
have hc1 : `|c| <= 6%:R * (d * P).
  apply: le_trans hc _; have -> : 6%:R * d * W * a = 6%:R * (d * (W * a)) by ring.
  by rewrite ler_pmul2l ?ltr0n // ler_wpmul2l.
have hx : `|x| + W * a <= P.
  rewrite /P mulrDr addrC ler_add2l -[X in X <= _]mul1r ler_wpmul2r //.
have hxc : `|x - c| <= P.
  apply: le_trans (ler_norm_sub _ _) _; apply: le_trans hx; rewrite ler_add2l.
  apply: le_trans hc _; have -> : 6%:R * d * W * a = (6%:R * d) * (W * a) by ring.
  rewrite -[X in _ <= X]mul1r ler_wpmul2r ?mulr_ge0 //; apply: le_trans d12.
  by rewrite ler_wpmul2r // ler_nat.
have hyx : `|y - (x - c)| <= d * P by apply: rnd_err.
have hy : `|y| <= P + d * P by apply: rnd_norm.
have hsy : `|s + y| <= 3%:R * P.
  apply: le_trans (add2 hs1 hy) _.
  have -> : P + (P + d * P) = 2%:R * P + d * P by ring.
  have -> : 3%:R * P = 2%:R * P + P by ring.
  rewrite ler_add2l; apply: le_trans dP; rewrite -[X in X <= _]mul1r ler_wpmul2r // ler1n //.
have ht : `|t - (s + y)| <= d * (3%:R * P) by apply: rnd_err.
have hts : `|t - s| <= P + d * P + d * (3%:R * P).
  by have -> : t - s = y + (t - (s + y)); [ring|apply: add2].
have hc' : `|rnd (rnd (t - s) - y)| <= 6%:R * d * (W * (1 + u)) * a'.
  have h1 : `|rnd (t - s) - y| <= d * (3%:R * P) + d * (P + d * P + d * (3%:R * P)).
    have -> : rnd (t - s) - y = (t - (s + y)) + (rnd (t - s) - (t - s)) by ring.
    by apply: add2 => //; apply: rnd_err.
  apply: le_trans (rnd_norm h1) _.
  apply: (@le_trans _ _ (6%:R * (d * P))).
    have h2 : 0 <= d * (P - 12%:R * (d * P)) by rewrite mulr_ge0 // subr_ge0.
    have h3 : 0 <= d * (d * (P - 12%:R * (d * P))) by do 2 (rewrite mulr_ge0 //); rewrite subr_ge0.
    have h4 : 0 <= d * (d * P) by rewrite mulr_ge0.
    rewrite -subr_ge0.
    have -> : 6%:R * (d * P) - (d * (3%:R * P) + d * (P + d * P + d * (3%:R * P))
       + d * (d * (3%:R * P) + d * (P + d * P + d * (3%:R * P)))) =
       2%:R * (d * P) - 8%:R * (d * (d * P)) - 4%:R * (d * (d * (d * P))) by ring.
    have -> : 2%:R * (d * P) - 8%:R * (d * (d * P)) - 4%:R * (d * (d * (d * P))) =
       2%:R * (d * (P - 12%:R * (d * P))) + (16%:R * (d * (d * P)) - 4%:R * (d * (d * (d * P)))) by ring.
    have -> : 16%:R * (d * (d * P)) - 4%:R * (d * (d * (d * P))) =
       15%:R * (d * (d * P)) + d * (d * (P - 12%:R * (d * P))) + 8%:R * (d * (d * (d * P))) by ring.
    have n0 (n : nat) (z : R) : 0 <= z -> 0 <= n%:R * z by move=> z0; apply: mulr_ge0 => //; exact: ler0n.
    apply: addr_ge0; first exact: n0.
    apply: addr_ge0; last by apply: n0; apply: mulr_ge0.
    by apply: addr_ge0 => //; apply: n0.
  have -> : 6%:R * d * (W * (1 + u)) * a' = 6%:R * (d * P) + 6%:R * (d * P) * u by rewrite /P; ring.
  by rewrite ler_addl mulr_ge0 ?u0' // mulr_ge0 ?ler0n.
apply: IH => //.
- by rewrite mulr_ege1 // ler_addl u0'.
- exact: add2.
have -> : t - (S + x) = (t - (s + y)) + (s - S) + ((y - (x - c)) - c) by ring.
have h5 : `|(y - (x - c)) - c| <= d * P + 6%:R * (d * P) by apply: add2 => //; rewrite normrN.
apply: le_trans (add3 ht hs h5) _.
have -> : (W * (1 + u) - 1) * a' = (W - 1) * a + (W - 1) * `|x| + u * P by rewrite /P /a'; ring.
have -> : d * (3%:R * P) + (W - 1) * a + (d * P + 6%:R * (d * P)) = (W - 1) * a + 10%:R * d * P by ring.
rewrite -addrA ler_add2l; apply: le_trans (ler_wpmul2r P0 du) _.
by rewrite ler_addr mulr_ge0 // subr_ge0.
Qed.

Lemma kahan_accurate : accurate_sum u (kahan_sum rnd).
Proof.
case=> [|x l]; first by rewrite /= !big_nil subrr normr0 mulr0.
have h : `|kahan rnd x 0 l - (x + \sum_(x <- l) x)| <= (1 * (1 + u) ^+ size l - 1) * (`|x| + \sum_(x <- l) `|x|).
  by apply: kahan_err => //; [rewrite !subrr normr0 mul0r|rewrite normr0 !mulr_ge0 ?ler01 ?ler0n].
rewrite /= !big_cons; apply: le_trans h _; rewrite mul1r.
apply: ler_wpmul2r; first by rewrite addr_ge0 // sumr_ge0.
by rewrite ler_add2r /= exprS -[X in X <= _]mul1r ler_wpmul2r ?exprn_ge0 ?addr_ge0 ?ler01 ?u0' // ler_addl u0'.
Qed.

End Kahan.
