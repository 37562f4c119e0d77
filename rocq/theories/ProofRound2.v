(* The operations of complex numbers built from a rounding of real numbers are
   accurate. *)
From mathcomp Require Import all_ssreflect all_algebra complex.
From mathcomp Require Import ring zify.
From Verif Require Import Base ModelDist ModelFloat SpecFloat SpecFloatGcc ModelRound SpecRound ProofFloat ProofFloatSub ProofFloatDist ProofRound1.
Set Implicit Arguments.
Unset Strict Implicit.
Unset Printing Implicit Defensive.
Import Order.TTheory GRing.Theory Num.Theory.
Local Open Scope ring_scope.

Section Round.
Variable R : rcfType.
Notation CF := (ComplexField.complex_numFieldType R).
Variables (d : R) (rnd : R -> R) (Op Os : nat -> tree).
Hypothesis d0 : 0 <= d.
Hypothesis d12 : 12%:R * d <= 1.
Hypothesis Hr : forall x, `|rnd x - x| <= d * `|x|.
Hypothesis oP : order_ok Op.
Hypothesis oS : order_ok Os.

Notation u := (op_accuracy d).
Notation near := (near d).

Lemma E3 : (1 + d) ^+ 3 <= 3%:R / 2%:R.
Proof.
have h : 3%:R * d <= 2%:R^-1.
  rewrite -(ler_pmul2l (_ : 0 < (4%:R : R))) ?ltr0n //.
  apply: (@le_trans _ _ 1).
    by apply: le_trans d12; rewrite mulrA -natrM.
  by rewrite (_ : 4%:R / 2%:R = 2%:R) ?ler1n // -[4%N]/(2 * 2)%N natrM mulfK ?pnatr_eq0.
have := E_linear d0 h; rewrite ler_subl_addr => h2; apply: le_trans h2 _.
have -> : 3%:R / 2%:R = 2%:R^-1 + 1 :> R.
  have n2 : 2%:R != 0 :> R by rewrite pnatr_eq0.
  by apply: (mulIf n2); rewrite mulfVK // mulrDl mulVf // mul1r -[1]/(1%:R) -natrD.
rewrite ler_add2r -(ler_pmul2l (_ : 0 < (2%:R : R))) ?ltr0n // mulfV ?pnatr_eq0 //.
by apply: le_trans d12; rewrite !mulrA -!natrM.
Qed.

Lemma E_u k : (k <= 12)%N -> 2%:R * ((1 + d) ^+ k - 1) <= u.
Proof. by move=> hk; rewrite /op_accuracy ler_pmul2l ?ltr0n // ler_add2r E_le. Qed.

Lemma E_u1 k : (k <= 12)%N -> (1 + d) ^+ k - 1 <= u.
Proof.
move=> hk; apply: le_trans (E_u hk); rewrite -[X in X <= _]mul1r ler_wpmul2r ?E0 // ler1n //.
Qed.

Lemma d_u : d <= u.
Proof. by apply: le_trans (@E_u1 1%N isT); rewrite expr1 addrC addKr. Qed.

Lemma dd_u : 2%:R * d <= u.
Proof. by apply: le_trans (@E_u 1%N isT); rewrite expr1 [1 + d]addrC addrK. Qed.

Lemma u_ge0 : 0 <= u. Proof. exact: le_trans d_u. Qed.

(* single roundings *)
Definition single : arith R :=
  Arith (fun x y => rnd (x + y)) (fun x y => rnd (x - y)) (fun x y => rnd (x * y))
    (fun x z => rnd (x / z%:~R)) (fun x e => x ^+ e) (fun z => rnd z%:~R) (fun y z => rnd (y%:~R / z%:~R))
    (fun x y => rnd (x / y)).

Lemma accS : accurate d single.
Proof.
split => *; rewrite /=; try exact: Hr.
by rewrite subrr normr0 mulr_ge0 // E0.
Qed.

Lemma d_half : d <= 2%:R^-1.
Proof.
rewrite -(ler_pmul2l (_ : 0 < (12%:R : R))) ?ltr0n //; apply: le_trans d12 _.
by rewrite -[12%N]/(6 * 2)%N natrM mulfK ?pnatr_eq0 // ler1n.
Qed.

Lemma near_rdiv K k v a w q0 q : (K <= 3)%N -> q0 != 0 ->
  `|q - q0| <= ((1 + d) ^+ K - 1) * `|q0| -> near k v a w ->
  near (k + 2 * K).+1 (v / q0) (a / `|q0|) (rnd (w / q)).
Proof.
move=> K3 q00 hq hn.
by have [_] := near_fdivK d0 accS (le_trans (E_le d0 K3) E3) q00 hq hn.
Qed.

Lemma near_x x k : near k x `|x| x. Proof. exact: near_exact. Qed.

Lemma real_accurate : accurate u (real_arith rnd Op).
Proof.
have Hu x : `|rnd x - x| <= u * `|x| by apply: le_trans (Hr x) _; rewrite ler_wpmul2r // d_u.
split => /=; try (move=> *; exact: Hu).
- move=> x z z0; have z0' : z%:~R != 0 :> R by rewrite intr_eq0.
  have [_ h] : near 3 (x / z%:~R) (`|x| / `|z%:~R : R|) (rnd (x / rnd z%:~R)).
    by apply: (@near_rdiv 1 0) => //; [rewrite expr1 [1 + d]addrC addrK|apply: near_x].
  apply: le_trans h _; rewrite normrM normfV ler_wpmul2r ?mulr_ge0 ?invr_ge0 //; exact: E_u1.
- move=> x [|e]; first by rewrite /r_pow subrr normr0 mulr_ge0 ?E0 ?u_ge0.
  by apply: (@tree_pow _ _ _ u_ge0).
Qed.

Lemma real_foldl : accurate_sum d (foldl (fun x y => rnd (x + y)) 0).
Proof.
move=> l; suff H s S a k : near k S a s ->
   near (k + size l) (S + \sum_(x <- l) x) (a + \sum_(x <- l) `|x|) (foldl (fun x y => rnd (x + y)) s l).
  have z : near 0 (0 : R) 0 0 by apply: near_exact; rewrite ?normr0.
  by have [_] := H 0 0 0 0%N z; rewrite !add0r.
elim: l s S a k => [|x l IH] s S a k n; first by rewrite !big_nil !addr0 addn0.
rewrite !big_cons !addrA /= -addSnnS; apply: IH.
exact: (near_add d0 accS n (near_x x k)).
Qed.

Lemma real_sum : accurate_sum d (r_sum rnd Os).
Proof.
move=> l; apply: (@tree_sum_list _ d (fun x y => rnd (x + y))) => // x y; exact: Hr.
Qed.

(* complex numbers *)
Notation ab := (@py_abs R).

Lemma ab_ge0 z : 0 <= ab z. Proof. exact: sqrtr_ge0. Qed.

Lemma ab_sq (a b : R) : ab (a +i* b)%C ^+ 2 = a ^+ 2 + b ^+ 2.
Proof. by rewrite sqr_sqrtr // addr_ge0 ?sqr_ge0. Qed.

Lemma abM x y : ab (x * y) = ab x * ab y.
Proof. by apply: complexI; rewrite rmorphM /= -!normE normrM. Qed.

Lemma abV x : ab x^-1 = (ab x)^-1.
Proof. by apply: complexI; rewrite fmorphV /= -!normE normfV. Qed.

Lemma ab_parts (a b : R) : ab (a +i* b)%C <= `|a| + `|b|.
Proof.
rewrite -(@ler_pexpn2r _ 2) ?nnegrE ?ab_ge0 ?addr_ge0 // ab_sq.
rewrite -(real_normK (num_real a)) -(real_normK (num_real b)).
have -> : (`|a| + `|b|) ^+ 2 = `|a| ^+ 2 + `|b| ^+ 2 + 2%:R * (`|a| * `|b|) by ring.
by rewrite ler_addl !mulr_ge0.
Qed.

Lemma parts_sq (a b : R) : (`|a| + `|b|) ^+ 2 <= 2%:R * ab (a +i* b)%C ^+ 2.
Proof.
rewrite ab_sq -(real_normK (num_real a)) -(real_normK (num_real b)) -subr_ge0.
have -> : 2%:R * (`|a| ^+ 2 + `|b| ^+ 2) - (`|a| + `|b|) ^+ 2 = (`|a| - `|b|) ^+ 2 by ring.
exact: sqr_ge0.
Qed.

Lemma parts_le (a b : R) : `|a| + `|b| <= 2%:R * ab (a +i* b)%C.
Proof.
rewrite -(@ler_pexpn2r _ 2) ?nnegrE ?mulr_ge0 ?ab_ge0 ?addr_ge0 ?ler01 //.
apply: le_trans (parts_sq a b) _; rewrite exprMn ler_wpmul2r ?exprn_ge0 ?ab_ge0 //.
by rewrite expr2 -natrM ler_nat.
Qed.

Lemma parts_mul (a b c e : R) :
  (`|a| + `|b|) * (`|c| + `|e|) <= 2%:R * (ab (a +i* b)%C * ab (c +i* e)%C).
Proof.
rewrite -(@ler_pexpn2r _ 2) ?nnegrE ?mulr_ge0 ?mulr_ge0 ?ab_ge0 ?addr_ge0 ?ler01 //.
rewrite exprMn; apply: le_trans (ler_pmul _ _ (parts_sq a b) (parts_sq c e)) _; rewrite ?sqr_ge0 //.
by rewrite !exprMn mulrACA expr2.
Qed.

(* from the errors of both parts to the error *)
Lemma ab_err k (v1 v2 a1 a2 w1 w2 B : R) : (k <= 12)%N ->
  near k v1 a1 w1 -> near k v2 a2 w2 -> a1 + a2 <= 2%:R * B ->
  ab ((w1 +i* w2)%C - (v1 +i* v2)%C) <= u * B.
Proof.
move=> k12 [va1 h1] [va2 h2] hB; apply: le_trans (ab_parts _ _) _.
apply: le_trans (ler_add h1 h2) _; rewrite -mulrDr.
apply: le_trans (ler_wpmul2l (E0 d0 k) hB) _.
have B0 : 0 <= B.
  rewrite -(@pmulr_rge0 _ 2%:R) ?ltr0n //; apply: le_trans hB.
  by rewrite addr_ge0 // ?(near_ge0 (conj va1 h1)) ?(near_ge0 (conj va2 h2)).
rewrite mulrA [_ * 2%:R]mulrC ler_wpmul2r //; exact: E_u.
Qed.

Lemma c_err k (v1 v2 a1 a2 w1 w2 : R) : (k <= 12)%N ->
  near k v1 a1 w1 -> near k v2 a2 w2 -> a1 + a2 <= 2%:R * ab (v1 +i* v2)%C ->
  `|(w1 +i* w2)%C - (v1 +i* v2)%C| <= (u%:C)%C * `|(v1 +i* v2)%C : CF|.
Proof.
by move=> k12 n1 n2 h; rewrite !normE -rmorphM lecR; apply: (ab_err k12 n1 n2).
Qed.

Lemma near_rnd x : near 1 x `|x| (rnd x).
Proof. exact: (near_round1 d0 (near_x x 0) (Hr x)). Qed.

Lemma c_add_acc x y : `|c_add rnd x y - (x + y)| <= (u%:C)%C * `|x + y|.
Proof.
case: x y => [a b] [c e]; apply: (@c_err 1) (near_rnd _) (near_rnd _) _ => //; exact: parts_le.
Qed.

Lemma c_sub_acc x y : `|c_sub rnd x y - (x - y)| <= (u%:C)%C * `|x - y|.
Proof.
case: x y => [a b] [c e]; apply: (@c_err 1) (near_rnd _) (near_rnd _) _ => //; exact: parts_le.
Qed.

Lemma near_prod x y : near 1 (x * y) (`|x| * `|y|) (rnd (x * y)).
Proof. by rewrite -normrM; apply: near_rnd. Qed.

Lemma c_mul_acc x y : `|c_mul rnd x y - x * y| <= (u%:C)%C * `|x * y|.
Proof.
case: x y => [a b] [c e].
have n1 := near_sub d0 accS (near_prod a c) (near_prod b e).
have n2 := near_add d0 accS (near_prod a e) (near_prod b c).
apply: (@c_err 2) n1 n2 _ => //.
have -> : `|a| * `|c| + `|b| * `|e| + (`|a| * `|e| + `|b| * `|c|) = (`|a| + `|b|) * (`|c| + `|e|) by ring.
apply: le_trans (parts_mul a b c e) _; by rewrite -abM.
Qed.

(* Smith's division; a pair of numerators over a common denominator *)
Lemma smith_part (a b r rh den denh : R) (w : R) :
  near 1 r `|r| rh -> den != 0 -> `|denh - den| <= ((1 + d) ^+ 3 - 1) * `|den| ->
  near 3 (a + b * r) (`|a| + `|b| * `|r|) w ->
  near 12 ((a + b * r) / den) ((`|a| + `|b| * `|r|) / `|den|) (rnd (w * rnd (1 / denh))).
Proof.
move=> nr den0 hd nw.
have n1 : near 7 (1 / den) (1 / `|den|) (rnd (1 / denh)).
  by apply: (@near_rdiv 3 0) => //; rewrite -[X in near _ _ X]normr1; apply: near_x.
have := near_mul d0 accS nw n1; rewrite /= !mul1r.
by apply: near_k.
Qed.

Lemma smith_den (c e r rh : R) : c != 0 -> r = e / c -> near 1 r `|r| rh ->
  c + e * r != 0 /\ `|rnd (c + rnd (e * rh)) - (c + e * r)| <= ((1 + d) ^+ 3 - 1) * `|c + e * r|.
Proof.
move=> c0 Er nr.
have Ed : c + e * r = c * (1 + r ^+ 2) by rewrite Er; field.
have r2 : 0 < 1 + r ^+ 2 by rewrite ltr_spaddl ?ltr01 ?sqr_ge0.
have nd : c + e * r != 0 by rewrite Ed mulf_neq0 // gt_eqF.
split=> //.
have n1 := near_mul d0 accS (near_x e 0) nr.
have [_] := near_add d0 accS (near_x c 2) n1.
rewrite /=; have -> // : `|c| + `|e| * `|r| = `|c + e * r|.
rewrite Ed normrM (gtr0_norm r2) mulrDr mulr1; congr (_ + _).
have -> : e = r * c by rewrite Er mulfVK.
by rewrite normrM [`|r| * `|c|]mulrC -mulrA -expr2 real_normK ?num_real.
Qed.

(* the moduli of both numerators over the denominator *)
Lemma smith_bound (a b c e r : R) : c != 0 -> r = e / c ->
  (`|a| + `|b| * `|r|) / `|c + e * r| + (`|b| + `|a| * `|r|) / `|c + e * r|
    <= 2%:R * (ab (a +i* b)%C / ab (c +i* e)%C).
Proof.
move=> c0 Er; set y := (c +i* e)%C.
have y0 : ab y != 0.
  apply/eqP => h; have := ab_sq c e; rewrite -/y h expr0n /= => /esym/eqP.
  by rewrite paddr_eq0 ?sqr_ge0 // sqrf_eq0 (negPf c0).
have Ed : c * (c + e * r) = ab y ^+ 2 by rewrite ab_sq Er; field.
have d1 : `|c| * `|c + e * r| = ab y ^+ 2 by rewrite -normrM Ed ger0_norm // sqr_ge0.
have Ee : `|e| = `|c| * `|r| by rewrite -normrM Er mulrCA mulfV // mulr1.
have nc : `|c| != 0 by rewrite normr_eq0.
have nd : `|c + e * r| != 0.
  by apply/eqP => h; have := sqrf_eq0 (ab y); rewrite -d1 h mulr0 eqxx (negPf y0).
rewrite -mulrDl.
have -> : (`|a| + `|b| * `|r| + (`|b| + `|a| * `|r|)) / `|c + e * r| = (`|a| + `|b|) * (`|c| + `|e|) / ab y ^+ 2.
  by rewrite -d1 Ee; move: nc nd; generalize `|c| `|c + e * r| `|a| `|b| `|r| => C D A0 B0 R0 nc nd; field; rewrite nc nd.
rewrite ler_pdivr_mulr; last by rewrite exprn_gt0 // lt_neqAle eq_sym y0 ab_ge0.
apply: le_trans (parts_mul a b c e) _; rewrite -/y.
by move: y0; generalize (ab (a +i* b)%C) (ab y) => A B B0; have -> : 2%:R * (A / B) * B ^+ 2 = 2%:R * (A * B) by field.
Qed.

Lemma smith_quot (a b c e r : R) : (c +i* e)%C != 0 :> CF -> c != 0 -> r = e / c ->
  (a +i* b)%C / (c +i* e)%C = (((a + b * r) / (c + e * r)) +i* ((b + - a * r) / (c + e * r)))%C :> CF.
Proof.
move=> y0 c0 Er; apply: (mulIf y0); rewrite mulfVK //; apply/eqP; rewrite eq_complex /=.
have d2 : c * c + e * e != 0.
  apply/eqP => /eqP; rewrite -!expr2 paddr_eq0 ?sqr_ge0 // => /andP[].
  by rewrite sqrf_eq0 (negPf c0).
by apply/andP; split; apply/eqP; rewrite Er; field; rewrite c0 /= d2.
Qed.

Lemma smith_quot2 (a b c e r : R) : (c +i* e)%C != 0 :> CF -> e != 0 -> r = c / e ->
  (a +i* b)%C / (c +i* e)%C = (((b + a * r) / (e + c * r)) +i* ((- a + b * r) / (e + c * r)))%C :> CF.
Proof.
move=> y0 e0 Er; apply: (mulIf y0); rewrite mulfVK //; apply/eqP; rewrite eq_complex /=.
have d2 : e * e + c * c != 0.
  apply/eqP => /eqP; rewrite -!expr2 paddr_eq0 ?sqr_ge0 // => /andP[].
  by rewrite sqrf_eq0 (negPf e0).
by apply/andP; split; apply/eqP; rewrite Er; field; rewrite e0 /= d2.
Qed.

Lemma ab_swap (a b : R) : ab (b +i* a)%C = ab (a +i* b)%C.
Proof. by rewrite /py_abs addrC. Qed.

Lemma c_div_acc x y : y != 0 -> `|c_div rnd x y - x / y| <= (u%:C)%C * `|x / y|.
Proof.
case: x y => [a b] [c e] y0; rewrite /c_div.
case: ifPn => h.
- have c0 : c != 0.
    apply/eqP => hc; move: h; rewrite hc normr0 normr_le0 => /eqP he.
    by move: y0; rewrite hc he; case/eqP.
  set r := e / c; have nr := near_rnd r.
  have [d1 hd] := smith_den c0 (erefl r) nr.
  have nbr := near_mul d0 accS (near_x b 0) nr.
  have nar := near_mul d0 accS (near_x a 0) nr.
  have m1 := smith_part nr d1 hd (near_add d0 accS (near_x a 2) nbr).
  have n2 : near 3 (b + - a * r) (`|b| + `|- a| * `|r|) (rnd (b - rnd (a * rnd r))).
    by rewrite mulNr normrN; apply: (near_sub d0 accS (near_x b 2) nar).
  have m2 := smith_part nr d1 hd n2.
  have Eq := smith_quot a b y0 c0 (erefl r).
  rewrite Eq; apply: (c_err _ m1 m2) => //.
  rewrite -Eq abM abV normrN; exact: (smith_bound a b c0 (erefl r)).
- have e0 : e != 0.
    apply/eqP => he; move: h; rewrite he normr0 normr_ge0 //.
  set r := c / e; have nr := near_rnd r.
  have [d1 hd] := smith_den e0 (erefl r) nr.
  have nbr := near_mul d0 accS (near_x b 0) nr.
  have nar := near_mul d0 accS (near_x a 0) nr.
  have n1 : near 3 (b + a * r) (`|b| + `|a| * `|r|) (rnd (rnd (a * rnd r) + b)).
    by rewrite [b + _]addrC [`|b| + _]addrC; apply: (near_add d0 accS nar (near_x b 2)).
  have n2 : near 3 (- a + b * r) (`|- a| + `|b| * `|r|) (rnd (rnd (b * rnd r) - a)).
    by rewrite normrN [- a + _]addrC [`|a| + _]addrC; apply: (near_sub d0 accS nbr (near_x a 2)).
  have m1 := smith_part nr d1 hd n1.
  have m2 := smith_part nr d1 hd n2.
  have Eq := smith_quot2 a b y0 e0 (erefl r).
  rewrite Eq; apply: (c_err _ m1 m2) => //.
  rewrite -Eq abM abV normrN -(ab_swap a b) -(ab_swap c e); exact: (smith_bound b a e0 (erefl r)).
Qed.

Lemma c_real (x v : R) : `|x - v| <= u * `|v| -> `|(x%:C)%C - (v%:C)%C| <= (u%:C)%C * `|(v%:C)%C : CF|.
Proof.
move=> h; rewrite -rmorphB !normE -rmorphM lecR /py_abs /= !expr0n /= !addr0 !sqrtr_sqr //.
Qed.

Lemma intC (z : int) : (z%:~R : CF) = ((z%:~R : R)%:C)%C.
Proof. by rewrite rmorph_int. Qed.

Lemma rnd0 : rnd 0 = 0.
Proof. by have := Hr 0; rewrite normr0 mulr0 subr0 normr_le0 => /eqP. Qed.

Lemma c_divz_acc x (z : int) : z != 0 ->
  `|c_div rnd x ((rnd z%:~R)%:C)%C - x / z%:~R| <= (u%:C)%C * `|x / z%:~R|.
Proof.
case: x => [a b] z0; have z0' : z%:~R != 0 :> R by rewrite intr_eq0.
rewrite /c_div /real_complex_def normr0 normr_ge0 /= mul0r rnd0 !mulr0 rnd0 !addr0 !subr0.
set q := rnd z%:~R.
have nz : near 2 z%:~R `|z%:~R : R| (rnd q) by apply: (near_round1 d0 (near_rnd _)).
have n1 : near 5 (1 / z%:~R) (1 / `|z%:~R : R|) (rnd (1 / rnd q)).
  by apply: (@near_rdiv 2 0) => //; [case: nz|rewrite -[X in near _ _ X]normr1; apply: near_x].
have n2 w : near 7 (w / z%:~R) (`|w| / `|z%:~R : R|) (rnd (rnd w * rnd (1 / rnd q))).
  by have := near_mul d0 accS (near_rnd w) n1; rewrite /= !mul1r.
have Eq : (a +i* b)%C / z%:~R = ((a / z%:~R) +i* (b / z%:~R))%C :> CF.
  have zC : z%:~R != 0 :> CF by rewrite intr_eq0.
  apply: (mulIf zC); rewrite mulfVK // intC; apply/eqP; rewrite eq_complex /=.
  by rewrite !mulr0 subr0 add0r !mulfVK ?eqxx.
rewrite Eq; apply: (c_err _ (n2 a) (n2 b)) => //.
by rewrite -!normf_div; apply: parts_le.
Qed.

Lemma uC_ge0 : 0 <= (u%:C)%C :> CF. Proof. by rewrite ler0c u_ge0. Qed.

Lemma complex_accurate : accurate (u%:C)%C (complex_arith rnd Op).
Proof.
split => /=.
- exact: c_add_acc.
- exact: c_sub_acc.
- exact: c_mul_acc.
- exact: c_divz_acc.
- move=> x [|k]; first by rewrite /c_pow subrr normr0 mulr_ge0 ?E0 ?uC_ge0.
  by apply: (@tree_pow _ _ _ uC_ge0) => //; exact: c_mul_acc.
- by move=> z; rewrite intC; apply: c_real; apply: (acc_int real_accurate).
- by move=> y z z0; rewrite !intC -fmorphV -rmorphM; apply: c_real; apply: (acc_quot real_accurate).
- exact: c_div_acc.
Qed.

(* moduli *)
Lemma near_sqrt (v w : R) : 0 <= v -> near 2 v v w -> near 2 (Num.sqrt v) (Num.sqrt v) (Num.sqrt w).
Proof.
move=> v0 [_ h]; have s0 := sqrtr_ge0 v; split; first by rewrite ger0_norm.
have w0 : 0 <= w.
  have e1 : (1 + d) ^+ 2 - 1 <= 1.
    rewrite ler_subl_addr; apply: le_trans (E_le d0 (_ : 2 <= 3)%N) _ => //; apply: le_trans E3 _.
    by rewrite ler_pdivr_mulr ?ltr0n // -[1 + 1]/(2%:R) -natrM ler_nat.
  have : `|w - v| <= v by apply: le_trans h _; rewrite -[X in _ <= X]mul1r; apply: ler_wpmul2r.
  by rewrite ler_norml => /andP[]; rewrite ler_subr_addr addNr.
have [sv|sv] := eqVneq (Num.sqrt v) 0.
  have v00 : v = 0 by apply/eqP; rewrite eq_le v0 -sqrtr_eq0 sv eqxx.
  move: h; rewrite v00 mulr0 subr0 normr_le0 => /eqP ->.
  by rewrite subrr normr0 mulr_ge0 ?E0 ?sqrtr_ge0.
have sp : 0 < Num.sqrt v by rewrite lt_neqAle eq_sym sv.
rewrite -(ler_pmul2r sp) -mulrA -expr2 sqr_sqrtr //; apply: le_trans h.
have -> : w - v = (Num.sqrt w - Num.sqrt v) * (Num.sqrt w + Num.sqrt v).
  by rewrite -subr_sqr !sqr_sqrtr.
rewrite normrM ler_wpmul2l // ger0_norm ?addr_ge0 ?sqrtr_ge0 // ler_addr sqrtr_ge0 //.
Qed.

Lemma c_abs_acc z : `|c_abs rnd z - py_abs z| <= u * py_abs z.
Proof.
case: z => [a b]; rewrite /c_abs.
have n1 x : near 1 (x ^+ 2) (x ^+ 2) (rnd (x * x)).
  by rewrite -[X in near _ _ X](ger0_norm (sqr_ge0 x)) expr2; apply: near_rnd.
have n2 := near_add d0 accS (n1 a) (n1 b).
have n3 := near_sqrt (addr_ge0 (sqr_ge0 a) (sqr_ge0 b)) n2.
have [_ h] := near_round1 d0 n3 (Hr _).
by apply: le_trans h _; apply: (ler_wpmul2r (sqrtr_ge0 _)); exact: E_u1.
Qed.

End Round.

(* linear bound of the accuracy *)
Lemma op_accuracy_le (R : rcfType) (d : R) : 0 <= d -> 24%:R * d <= 1 -> op_accuracy d <= 48%:R * d.
Proof.
move=> d0 h; have h2 : 12%:R * d <= 2%:R^-1.
  by rewrite -(ler_pmul2l (_ : 0 < (2%:R : R))) ?ltr0n // mulfV ?pnatr_eq0 // mulrA -natrM.
rewrite /op_accuracy; apply: le_trans (ler_wpmul2l (ler0n _ 2) (E_linear d0 h2)) _.
by rewrite !mulrA -!natrM.
Qed.

(* orders *)
Lemma left_order_ok : order_ok left_order.
Proof.
move=> n n0; suff -> : leaves (left_order n) = iota 0 n by [].
elim: n n0 => [|[|n] IH] // _.
by rewrite [LHS]/= -/(left_order n.+1) IH // -[n.+2]addn1 iotaD add0n.
Qed.

Lemma half_order_leaves fuel lo n : (0 < n <= fuel)%N -> leaves (half_order fuel lo n) = iota lo n.
Proof.
elim: fuel lo n => [|fuel IH] lo n; first by case: n.
move=> /andP[n0 nf] /=; case: ifPn => h; first by have -> : n = 1%N by lia.
have [h1 h2] : (0 < n./2 <= fuel)%N /\ (0 < n - n./2 <= fuel)%N by lia.
by rewrite /= !IH // -iotaD subnKC //; lia.
Qed.

Lemma pairwise_order_ok : order_ok pairwise_order.
Proof. by move=> n n0; rewrite /pairwise_order half_order_leaves // n0 leqnn. Qed.
