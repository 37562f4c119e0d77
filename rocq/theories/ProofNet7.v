(* The Fourier matrix and the matrix of phases. *)
From mathcomp Require Import all_ssreflect all_algebra complex ring.
From Verif Require Import Base SpecPerm SpecBS SpecNet ModelPerm ModelNet BsMath ProofNet1 ProofNet2.
Set Implicit Arguments.
Unset Strict Implicit.
Unset Printing Implicit Defensive.
Import Order.TTheory GRing.Theory Num.Theory.
Local Open Scope ring_scope.
Local Open Scope py_scope.

Section Qft.
Variable R : rcfType.
Notation C := (ComplexField.complex_numFieldType R).
Notation mat := (seq (seq C)).
Variable cis : R -> C.
Hypothesis ok : cis_ok cis.

Lemma cisD x y : cis (x + y) = cis x * cis y. Proof. by case: ok. Qed.
Lemma cis0 : cis 0 = 1.
Proof. by case: ok => _ _ /(_ 1%N 0%N isT)[_]; rewrite mul0r dvdn0 => ->. Qed.
Lemma cis_conj x : conjc (cis x) * cis x = 1.
Proof. by rewrite -nsqE; case: ok => _ -> _. Qed.
Lemma cisX x k : cis x ^+ k = cis (x * k%:R).
Proof. by elim: k => [|k IH]; rewrite ?mulr0 ?cis0 // exprS IH -cisD -addn1 natrD mulrDr mulr1 addrC. Qed.

Variable n : nat.
Hypothesis n0 : (0 < n)%N.
Let w := cis (1 / n%:R).

Lemma wX k : w ^+ k = cis (k%:R / n%:R).
Proof. by rewrite cisX mul1r mulrC. Qed.
Lemma wX1 k : (w ^+ k = 1) <-> (n %| k)%N.
Proof. by rewrite wX; case: ok => _ _ /(_ n k n0). Qed.
Lemma wn : w ^+ n = 1. Proof. exact/wX1/dvdnn. Qed.
Lemma conjX k : conjc (w ^+ k) * w ^+ k = 1. Proof. by rewrite wX cis_conj. Qed.

Lemma wX_inj i j : (i < n)%N -> (j < n)%N -> w ^+ i = w ^+ j -> i = j.
Proof.
wlog le : i j / (i <= j)%N => [H il jl e|il jl e].
  by case: (leqP i j) => h; [exact: H|apply/esym; apply: H => //; exact: ltnW].
have : w ^+ (j - i) = 1.
  have u : w ^+ i != 0 by apply/eqP => h; have := conjX i; rewrite h mulr0 => /eqP; rewrite eq_sym oner_eq0.
  by apply: (mulfI u); rewrite -exprD subnKC // mulr1.
move/wX1 => /dvdnP[q eq]; have : (j - i < n)%N by apply: leq_ltn_trans jl; exact: leq_subr.
rewrite eq -{2}[n]mul1n ltn_pmul2r // ltnS leqn0 => /eqP q0; move: eq; rewrite q0 mul0n => /eqP.
by rewrite subn_eq0 => ge; apply/eqP; rewrite eqn_leq le ge.
Qed.

Lemma geo (z : C) : z ^+ n = 1 -> z != 1 -> \sum_(k < n) z ^+ k = 0.
Proof.
move=> zn z1; have := subrX1 z n; rewrite zn subrr => /esym/eqP; rewrite mulf_eq0 subr_eq0 (negPf z1) /=.
by move/eqP.
Qed.

Lemma qft_ent i j : (i < n)%N -> (j < n)%N ->
  ent (compute_qft_matrix cis n) i j = cis ((i * j)%:R / n%:R) / (Num.sqrt n%:R)%:C%C.
Proof.
move=> il jl; rewrite /compute_qft_matrix eqn0Ngt n0 /= ent_tab // -/w wX.
by [].
Qed.

Lemma qft_square : is_square n (compute_qft_matrix cis n).
Proof. by rewrite /compute_qft_matrix eqn0Ngt n0; exact: rect_tab. Qed.

Lemma qft_unitary : unitary n (compute_qft_matrix cis n).
Proof.
split; first exact: qft_square.
move=> i j il jl; rewrite /ortho_cols.
have s0 : 0 < Num.sqrt (n%:R : R) by rewrite sqrtr_gt0 ltr0n.
have sC : (Num.sqrt (n%:R : R))%:C%C != 0 :> C by rewrite fmorph_eq0 gt_eqF.
have s2 : (Num.sqrt (n%:R : R))%:C%C * (Num.sqrt n%:R)%:C%C = n%:R :> C.
  by rewrite -rmorphM -expr2 sqr_sqrtr ?ler0n // rmorph_nat.
pose z := conjc (w ^+ i) * w ^+ j.
transitivity (\sum_(k < n) z ^+ k / n%:R).
  apply: eq_bigr => k _; rewrite !qft_ent // -!wX -s2 invfM.
  rewrite -[conjc _]/(cjm _ _) fmorph_div rmorphX.
  have -> : cjm R (Num.sqrt n%:R)%:C%C = (Num.sqrt n%:R)%:C%C by exact: conjc_real.
  rewrite mulrACA; congr (_ * _); rewrite /z exprMn -[conjc _]/(cjm _ _) rmorphX -!exprM.
  by rewrite ![(k * _)%N]mulnC.
rewrite -mulr_suml; case: (eqVneq i j) => [e|ne].
  have -> : z = 1 by rewrite /z e conjX.
  under eq_bigr do rewrite expr1n.
  by rewrite sumr_const card_ord divff // pnatr_eq0 -lt0n.
rewrite geo ?mul0r //.
  rewrite /z exprMn -[conjc _]/(cjm _ _) -rmorphX -!exprM !(mulnC _ n) !exprM wn !expr1n rmorph1 mulr1.
  by [].
apply/eqP => z1; case/eqP: ne; apply: wX_inj => //.
by rewrite -[LHS]mulr1 -z1 /z mulrA [w ^+ i * _]mulrC conjX mul1r.
Qed.

End Qft.

Section First.
Variable R : rcfType.
Notation C := (ComplexField.complex_numFieldType R).
Notation mat := (seq (seq C)).
Variable cis : R -> C.
Hypothesis ok : cis_ok cis.
Variables (m tot : nat).
Hypothesis le : (m <= tot)%N.

Lemma cornerE (B : mat) : np_set_corner (np_eye C tot) m B =
  [seq [seq if (i < m)%N && (j < m)%N then ent B i j else ent (np_eye C tot) i j | j <- iota 0 tot] | i <- iota 0 tot].
Proof.
have rI := eye_rect C tot; have sI : size (np_eye C tot) = tot by case/andP: rI => /eqP.
rewrite /np_set_corner sI; apply/eq_in_map => i; rewrite mem_iota add0n => il.
by rewrite (rect_row rI).
Qed.

Lemma qft_firstE : exists Q, [/\ qft_matrix_first cis m tot = Ok Q, is_square tot Q
  & forall i j : nat, (i < tot)%N -> (j < tot)%N ->
    ent Q i j = if (i < m)%N && (j < m)%N then ent (compute_qft_matrix cis m) i j else (i == j)%:R].
Proof.
rewrite /qft_matrix_first ltnNge le /=; eexists; split; first by reflexivity.
  by rewrite cornerE; exact: rect_tab.
move=> i j il jl; rewrite cornerE ent_tab //; case: ifP => // _.
have := congr1 (fun X : 'M_tot => X (Ordinal il) (Ordinal jl)) (mxof_eye C tot).
by rewrite !mxE -val_eqE.
Qed.

Lemma qft_first_unitary : exists Q, qft_matrix_first cis m tot = Ok Q /\ unitary tot Q.
Proof.
have [Q [eQ sq h]] := qft_firstE; exists Q; split=> //; split=> // i j il jl; rewrite /ortho_cols.
have e : (tot = m + (tot - m))%N by rewrite subnKC.
have [m0|mp] := posnP m.
  transitivity (\sum_(k < tot) conjc ((k == i :> nat)%:R) * (k == j :> nat)%:R : C).
    by apply: eq_bigr => k _; rewrite !h // !m0.
  rewrite (bigD1 (Ordinal il)) //= eqxx conjc1 mul1r big1 ?addr0 // => k ne.
  by rewrite [val k == i](_ : _ = false) ?conjc0 ?mul0r //; apply/eqP=> e'; case/eqP: ne; apply: val_inj.
have [_ o] := qft_unitary ok mp.
rewrite e big_split_ord /=.
have B (k : 'I_(tot - m)) : (m + k < tot)%N by rewrite {2}e ltn_add2l.
have E1 (k : 'I_m) l : (l < tot)%N -> ent Q k l = if (l < m)%N then ent (compute_qft_matrix cis m) k l else 0.
  move=> ll; rewrite h // ?(leq_trans (ltn_ord k) le) // ltn_ord /=; case: ifP => // /negbT; rewrite -leqNgt => ml.
  by rewrite ltn_eqF // (leq_trans (ltn_ord k) ml).
have E2 (k : 'I_(tot - m)) l : (l < tot)%N -> ent Q (m + k)%N l = ((m + k)%N == l)%:R.
  by move=> ll; rewrite h // ltnNge leq_addr.
under eq_bigr do rewrite !E1 //.
under [X in _ + X]eq_bigr do rewrite !E2 //.
case: (ltnP i m) => im; case: (ltnP j m) => jm.
- rewrite [X in _ + X]big1 ?addr0 => [|k _]; first exact: o.
  by rewrite [(m + k == i)%N](_ : _ = false) ?conjc0 ?mul0r //; apply/eqP => h'; move: im; rewrite -h' ltnNge leq_addr.
- rewrite big1 => [|k _]; last by rewrite mulr0.
  rewrite add0r big1 => [|k _]; first by rewrite ltn_eqF // (leq_trans im jm).
  by rewrite [(m + k == i)%N](_ : _ = false) ?conjc0 ?mul0r //; apply/eqP => h'; move: im; rewrite -h' ltnNge leq_addr.
- rewrite big1 => [|k _]; last by rewrite conjc0 mul0r.
  rewrite add0r big1 => [|k _]; first by rewrite gtn_eqF // (leq_trans jm im).
  by rewrite [(m + k == j)%N](_ : _ = false) ?mulr0 //; apply/eqP => h'; move: jm; rewrite -h' ltnNge leq_addr.
rewrite big1 => [|k _]; last by rewrite mulr0.
have il' : (i - m < tot - m)%N by rewrite ltn_sub2r // (leq_ltn_trans im).
rewrite add0r (bigD1 (Ordinal il')) //= subnKC // eqxx conjc1 mul1r big1 ?addr0 // => k ne.
rewrite [(m + k == i)%N](_ : _ = false) ?conjc0 ?mul0r //; apply/eqP=> e'; case/eqP: ne; apply: val_inj.
by rewrite /= -e' addKn.
Qed.

Variable draws : seq R.

Lemma phasesE : exists P, [/\ phases_matrix_first cis m tot draws = Ok P, is_square tot P
  & forall i j : nat, (i < tot)%N -> (j < tot)%N ->
    ent P i j = if i == j then if (i < m)%N then cis (draws`_i) else 1 else 0].
Proof.
rewrite /phases_matrix_first ltnNge le /=; eexists; split; first by reflexivity.
  by have := diag_rect [seq if (i < m)%N then cis draws`_i else 1 | i <- iota 0 tot]; rewrite size_map size_iota.
move=> i j il jl; set v := map _ _.
have sv : size v = tot by rewrite size_map size_iota.
rewrite /np_diag sv ent_tab //; case: eqP => // _; rewrite /v (nth_map 0%N) ?size_iota // nth_iota //.
Qed.

Lemma phases_unitary : exists P, phases_matrix_first cis m tot draws = Ok P /\ unitary tot P.
Proof.
have [P [eP sq h]] := phasesE; exists P; split=> //; split=> // i j il jl; rewrite /ortho_cols.
rewrite (bigD1 (Ordinal il)) //= big1 ?addr0 => [|k ne]; last first.
  by rewrite h // [val k == i](_ : _ = false) ?conjc0 ?mul0r //; apply/eqP=> e'; case/eqP: ne; apply: val_inj.
rewrite !h // eqxx; case: eqP => // _; last by rewrite mulr0.
by case: ifP => _; [exact: cis_conj|rewrite conjc1 mul1r].
Qed.
End First.
