(* Accumulation of rounding errors. *)
From mathcomp Require Import all_ssreflect all_algebra zify ring.
From Verif Require Import Base ModelPerm ModelFloat SpecFloat.
Set Implicit Arguments.
Unset Strict Implicit.
Unset Printing Implicit Defensive.
Import Order.Theory GRing.Theory Num.Theory.
Local Open Scope ring_scope.

Section Near.
Variable F : numFieldType.
Variable u : F.
Hypothesis u0 : 0 <= u.
Implicit Types (v w a : F) (k : nat).

Definition near k v a w : Prop := `|v| <= a /\ `|w - v| <= ((1 + u) ^+ k - 1) * a.

Lemma E1 k : 1 <= (1 + u) ^+ k.
Proof. by apply: exprn_ege1; rewrite ler_addl. Qed.

Lemma E0 k : 0 <= (1 + u) ^+ k - 1.
Proof. by rewrite subr_ge0 E1. Qed.

Lemma E_le k k' : (k <= k')%N -> (1 + u) ^+ k <= (1 + u) ^+ k'.
Proof. by move=> kk; apply: ler_weexpn2l => //; rewrite ler_addl. Qed.

Lemma near_ge0 k v a w : near k v a w -> 0 <= a.
Proof. by case=> va _; apply: le_trans va. Qed.

Lemma near_exact v a k : `|v| <= a -> near k v a v.
Proof.
move=> va; split=> //; rewrite subrr normr0 mulr_ge0 ?E0 //; exact: le_trans va.
Qed.

Lemma near_mono k k' v a a' w : (k <= k')%N -> a <= a' -> near k v a w -> near k' v a' w.
Proof.
move=> kk aa H; have a0 := near_ge0 H; case: H => va wv; split; first exact: le_trans aa.
apply: le_trans wv _; apply: ler_pmul => //; first exact: E0.
by rewrite ler_sub ?E_le.
Qed.

Lemma near_k k k' v a w : (k <= k')%N -> near k v a w -> near k' v a w.
Proof. by move=> kk; apply: near_mono. Qed.

(* the computed value is bounded as well *)
Lemma near_norm k v a w : near k v a w -> `|w| <= (1 + u) ^+ k * a.
Proof.
case=> va wv; rewrite -[w](subrK v); apply: le_trans (ler_norm_add _ _) _.
apply: le_trans (ler_add wv va) _; rewrite mulrBl mul1r subrK //.
Qed.

Lemma near_round k j v a w x : near k v a w -> `|x - w| <= ((1 + u) ^+ j - 1) * `|w| ->
  near (k + j) v a x.
Proof.
move=> H xw; have wn := near_norm H; case: (H) => va wv; split=> //.
have -> : x - v = (x - w) + (w - v) by ring.
apply: le_trans (ler_norm_add _ _) _; apply: le_trans (ler_add xw wv) _.
apply: (@le_trans _ _ (((1 + u) ^+ j - 1) * ((1 + u) ^+ k * a) + ((1 + u) ^+ k - 1) * a)).
  by rewrite ler_add2r ler_wpmul2l ?E0.
rewrite exprD; set x1 := _ ^+ j; set x2 := _ ^+ k.
by have -> : (x1 - 1) * (x2 * a) + (x2 - 1) * a = (x2 * x1 - 1) * a by ring.
Qed.

Lemma near_round1 k v a w x : near k v a w -> `|x - w| <= u * `|w| -> near k.+1 v a x.
Proof.
move=> H xw; rewrite -addn1; apply: near_round H _.
by rewrite expr1 [1 + u]addrC addrK.
Qed.

Lemma near_opp k v a w : near k v a w -> near k (- v) a (- w).
Proof. by case=> va wv; split; rewrite ?normrN // -opprD normrN. Qed.

Lemma near_plus k v1 a1 w1 v2 a2 w2 : near k v1 a1 w1 -> near k v2 a2 w2 ->
  near k (v1 + v2) (a1 + a2) (w1 + w2).
Proof.
case=> va1 wv1 [va2 wv2]; split.
  by apply: le_trans (ler_norm_add _ _) _; apply: ler_add.
have -> : w1 + w2 - (v1 + v2) = (w1 - v1) + (w2 - v2) by ring.
by apply: le_trans (ler_norm_add _ _) _; rewrite mulrDr; apply: ler_add.
Qed.

Lemma near_times k1 k2 v1 a1 w1 v2 a2 w2 : near k1 v1 a1 w1 -> near k2 v2 a2 w2 ->
  near (k1 + k2) (v1 * v2) (a1 * a2) (w1 * w2).
Proof.
move=> H1 H2; have a1p := near_ge0 H1; have a2p := near_ge0 H2; have n2 := near_norm H2.
case: H1 H2 => va1 wv1 [va2 wv2]; split; first by rewrite normrM ler_pmul.
have -> : w1 * w2 - v1 * v2 = (w1 - v1) * w2 + v1 * (w2 - v2) by ring.
apply: le_trans (ler_norm_add _ _) _; rewrite !normrM exprD.
set x1 := _ ^+ k1 in wv1 *; set x2 := _ ^+ k2 in wv2 n2 *.
have -> : (x1 * x2 - 1) * (a1 * a2) = (x1 - 1) * a1 * (x2 * a2) + a1 * ((x2 - 1) * a2) by ring.
by apply: ler_add; apply: ler_pmul.
Qed.

Lemma near_exp k v a w e : near k v a w -> near (e * k) (v ^+ e) (a ^+ e) (w ^+ e).
Proof.
move=> H; elim: e => [|e IH]; first by apply: near_exact; rewrite !expr0 normr1.
by rewrite !exprS mulSn; apply: near_times.
Qed.

Section Ops.
Variable A : arith F.
Hypothesis accA : accurate u A.

Lemma near_add k v1 a1 w1 v2 a2 w2 : near k v1 a1 w1 -> near k v2 a2 w2 ->
  near k.+1 (v1 + v2) (a1 + a2) (f_add A w1 w2).
Proof. move=> H1 H2; apply: near_round1 (near_plus H1 H2) _; exact: acc_add. Qed.

Lemma near_sub k v1 a1 w1 v2 a2 w2 : near k v1 a1 w1 -> near k v2 a2 w2 ->
  near k.+1 (v1 - v2) (a1 + a2) (f_sub A w1 w2).
Proof. move=> H1 H2; apply: near_round1 (near_plus H1 (near_opp H2)) _; exact: acc_sub. Qed.

Lemma near_mul k1 k2 v1 a1 w1 v2 a2 w2 : near k1 v1 a1 w1 -> near k2 v2 a2 w2 ->
  near (k1 + k2).+1 (v1 * v2) (a1 * a2) (f_mul A w1 w2).
Proof. move=> H1 H2; apply: near_round1 (near_times H1 H2) _; exact: acc_mul. Qed.

Lemma near_pow k v a w e : near k v a w ->
  near (e * k.+1) (v ^+ e) (a ^+ e) (f_pow A w e).
Proof.
move=> H; rewrite mulnS addnC; apply: near_round (near_exp e H) _; exact: acc_pow.
Qed.

Lemma near_int z : near 1 z%:~R `|z%:~R| (f_int A z).
Proof. by apply: near_round1 (near_exact 0 (lexx _)) _; apply: acc_int. Qed.

Lemma near_quot y z : z != 0 -> near 1 (y%:~R / z%:~R) `|y%:~R / z%:~R| (f_quot A y z).
Proof. by move=> z0; apply: near_round1 (near_exact 0 (lexx _)) _; apply: acc_quot. Qed.

Lemma near_div k v a w z : z != 0 -> near k v a w ->
  near k.+1 (v / z%:~R) (a / `|z%:~R|) (f_div A w z).
Proof.
move=> z0 [va wv]; apply: near_round1; last exact: acc_div.
have p0 : 0 <= `|z%:~R|^-1 :> F by rewrite invr_ge0.
split; first by rewrite normrM normfV ler_wpmul2r.
by rewrite -mulrBl normrM normfV mulrA ler_wpmul2r.
Qed.

End Ops.

(* the bounds in a linear form *)
Lemma E_linear k : k%:R * u <= 2%:R^-1 -> (1 + u) ^+ k - 1 <= 2%:R * k%:R * u.
Proof.
have H j : j%:R * u <= 1 -> (1 + u) ^+ j * (1 - j%:R * u) <= 1.
  elim: j => [|j IH] ju; first by rewrite expr0 mul0r subr0 mulr1.
  have ju' : j%:R * u <= 1 by apply: le_trans ju; rewrite ler_wpmul2r // ler_nat.
  apply: le_trans (IH ju'); rewrite exprSr -mulrA ler_wpmul2l ?(le_trans ler01 (E1 _)) //.
  rewrite -subr_ge0 -[j.+1]addn1 natrD.
  have -> : 1 - j%:R * u - (1 + u) * (1 - (j%:R + 1%:R) * u) = (j%:R + 1) * u ^+ 2.
    by rewrite -[1%:R]/(1 : F); move: (j%:R : F) => x; ring.
  by rewrite mulr_ge0 ?exprn_ge0 // addr_ge0 ?ler0n ?ler01.
move=> ku.
have h2 : 0 < 2%:R^-1 :> F by rewrite invr_gt0 ltr0n.
have ku1 : k%:R * u <= 1.
  by apply: le_trans ku _; rewrite invf_le1 ?ltr0n // ler1n.
have Hk := H k ku1; set x := _ ^+ k in Hk *; set y := k%:R * u in ku Hk ku1 *.
have -> : 2%:R * k%:R * u = 2%:R * y by rewrite -mulrA.
have y0 : 0 <= y by rewrite mulr_ge0 ?ler0n.
have d0 : 2%:R^-1 <= 1 - y.
  rewrite ler_subr_addr; apply: le_trans (ler_add (lexx _) ku) _.
  by rewrite -[X in X + _]mul1r -[X in _ + X]mul1r -mulrDl -[1 + 1]/(2%:R) divff // pnatr_eq0.
have dp : 0 < 1 - y by apply: lt_le_trans d0.
rewrite -(ler_pmul2r dp).
apply: (@le_trans _ _ (1 - (1 - y))); first by rewrite mulrBl mul1r ler_sub.
have -> : 1 - (1 - y) = y by ring.
have -> : 2%:R * y * (1 - y) = y * (2%:R * (1 - y)) by ring.
rewrite -[X in X <= _]mulr1 ler_wpmul2l //.
by rewrite -ler_pdivr_mull ?ltr0n // mulr1.
Qed.

End Near.
