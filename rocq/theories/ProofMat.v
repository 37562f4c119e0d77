(* Proofs about the distance of matrices. *)
From mathcomp Require Import all_ssreflect all_algebra complex ring zify.
From Verif Require Import Base SpecStates Combi SpecPerm SpecBS BsMath BsComb BsNorm ModelStates ModelPerm ModelDist SpecProb ModelGcc ModelGccB ModelNet SpecNet ProofNet1 ProofNet2 SpecMat ModelMat.
Set Implicit Arguments.
Unset Strict Implicit.
Unset Printing Implicit Defensive.
Import Order.TTheory GRing.Theory Num.Theory.
Local Open Scope ring_scope.
Local Open Scope py_scope.

Section CS.
Variables (R : rcfType) (I : finType).
Implicit Types x y : I -> R.

Lemma cauchy_schwarz x y : (\sum_i x i * y i) ^+ 2 <= (\sum_i x i ^+ 2) * (\sum_i y i ^+ 2).
Proof.
have h : 0 <= \sum_i \sum_j (x i * y j - x j * y i) ^+ 2.
  by apply: sumr_ge0 => i _; apply: sumr_ge0 => j _; exact: sqr_ge0.
set a := \sum_i x i ^+ 2; set b := \sum_i y i ^+ 2; set c := \sum_i x i * y i.
suff e : \sum_i \sum_j (x i * y j - x j * y i) ^+ 2 = 2%:R * (a * b - c ^+ 2).
  by move: h; rewrite e pmulr_rge0 ?ltr0n // subr_ge0.
have e1 : \sum_i \sum_j x i ^+ 2 * y j ^+ 2 = a * b.
  by rewrite /a mulr_suml; apply: eq_bigr => i _; rewrite mulr_sumr.
have e2 : \sum_i \sum_j x j ^+ 2 * y i ^+ 2 = a * b.
  by rewrite exchange_big.
have e3 : \sum_i \sum_j (x i * y i) * (x j * y j) = c ^+ 2.
  by rewrite expr2 /c mulr_suml; apply: eq_bigr => i _; rewrite mulr_sumr.
transitivity (a * b + a * b - 2%:R * c ^+ 2); last by ring.
rewrite -{1}e1 -e2 -e3 -big_split /= mulr_sumr -sumrB; apply: eq_bigr => i _.
rewrite -big_split /= mulr_sumr -sumrB; apply: eq_bigr => j _; ring.
Qed.

Lemma minkowski x y :
  Num.sqrt (\sum_i (x i + y i) ^+ 2) <= Num.sqrt (\sum_i x i ^+ 2) + Num.sqrt (\sum_i y i ^+ 2).
Proof.
have p (z : I -> R) : 0 <= \sum_i z i ^+ 2 by apply: sumr_ge0 => i _; exact: sqr_ge0.
set a := \sum_i x i ^+ 2; set b := \sum_i y i ^+ 2.
rewrite -(@ler_pexpn2r _ 2) ?nnegrE ?sqrtr_ge0 ?addr_ge0 ?sqrtr_ge0 //.
rewrite sqr_sqrtr // sqrrD !sqr_sqrtr ?p //.
have -> : \sum_i (x i + y i) ^+ 2 = a + (\sum_i x i * y i) *+ 2 + b.
  rewrite /a /b -sumrMnl -!big_split /=; apply: eq_bigr => i _; exact: sqrrD.
rewrite ler_add2r ler_add2l ler_pmuln2r // -sqrtrM ?p //.
case: (lerP 0 (\sum_i x i * y i)) => [h|h]; last exact: le_trans (ltW h) (sqrtr_ge0 _).
by rewrite -(@ler_pexpn2r _ 2) ?nnegrE ?sqrtr_ge0 // sqr_sqrtr ?mulr_ge0 ?p // cauchy_schwarz.
Qed.
End CS.

Section Dist.
Variable R : rcfType.
Notation C := (ComplexField.complex_numFieldType R).
Notation mat := (seq (seq C)).

Lemma abs_nsq (z : C) : py_abs z ^+ 2 = nsq z.
Proof. by rewrite /py_abs sqr_sqrtr // addr_ge0 ?sqr_ge0. Qed.


Lemma matrix_distanceE r c (A B : mat) : is_matrix r c A -> is_matrix r c B ->
  matrix_distance A B = Ok (frobenius r c A B).
Proof.
move=> rA rB; have /andP[/eqP sA aA] := rA; have /andP[/eqP sB aB] := rB.
case: (posnP r) => [r0|r0].
  move: rA rB sA sB; rewrite {}r0 => rA rB sA sB; move: rA rB; rewrite (size0nil sA) (size0nil sB) => _ _.
  by rewrite /matrix_distance /np_sub /bc_dim /= /frobenius big_ord0 /np_norm /=.
have cA := rect_cols (rA : is_rect _ _ A) r0; have cB := rect_cols (rB : is_rect _ _ B) r0.
rewrite /matrix_distance /np_sub cA cB sA sB /bc_dim !eqxx /=; congr Ok; congr Num.sqrt.
rewrite (_ : [seq _ | i <- _] = [seq [seq ent A i j - ent B i j | j <- iota 0 c] | i <- iota 0 r]); last first.
  apply/eq_in_map => i; rewrite mem_iota add0n => /andP[_ il].
  apply/eq_in_map => j; rewrite mem_iota add0n => /andP[_ jl].
  rewrite /bc_get /np_get cA cB sA sB /ent.
  have z (n k : nat) : (k < n)%N -> (if n == 1%N then 0%N else k) = k by case: eqP => [->|//]; case: k.
  by rewrite !z.
rewrite foldl_sum big_flatten /= big_map -[iota 0 r](_ : index_iota 0 r = _) ?big_mkord; last by rewrite /index_iota subn0.
apply: eq_bigr => i _; rewrite big_map -[iota 0 c](_ : index_iota 0 c = _); last by rewrite /index_iota subn0.
rewrite big_mkord; apply: eq_bigr => j _; exact: abs_nsq.
Qed.

Lemma frob_ge0 r c (A B : mat) : 0 <= frobenius r c A B.
Proof. exact: sqrtr_ge0. Qed.

Lemma nsq_ge0 (z : C) : 0 <= nsq z. Proof. by rewrite addr_ge0 ?sqr_ge0. Qed.
Lemma nsq_sym (x y : C) : nsq (x - y) = nsq (y - x).
Proof. by rewrite -opprB /nsq; case: (y - x) => a b /=; rewrite !sqrrN. Qed.
Lemma nsq_eq0' (z : C) : (nsq z == 0) = (z == 0).
Proof.
case: z => a b; rewrite /nsq /= paddr_eq0 ?sqr_ge0 // !sqrf_eq0 eq_complex /=; by [].
Qed.

Lemma frob_sym r c (A B : mat) : frobenius r c A B = frobenius r c B A.
Proof. by congr Num.sqrt; apply: eq_bigr => i _; apply: eq_bigr => j _; exact: nsq_sym. Qed.

Lemma frob_sum_ge0 r c (A B : mat) : 0 <= \sum_(i < r) \sum_(j < c) nsq (ent A i j - ent B i j).
Proof. by apply: sumr_ge0 => i _; apply: sumr_ge0 => j _; exact: nsq_ge0. Qed.

Lemma frob_eq0 r c (A B : mat) : is_matrix r c A -> is_matrix r c B ->
  frobenius r c A B = 0 <-> A = B.
Proof.
move=> rA rB; split=> [/eqP|->]; last first.
  by rewrite /frobenius big1 ?sqrtr0 // => i _; rewrite big1 // => j _; rewrite subrr /nsq /= expr0n addr0.
rewrite sqrtr_eq0 => le; have /eqP : \sum_(i < r) \sum_(j < c) nsq (ent A i j - ent B i j) = 0.
  by apply/le_anti; rewrite le frob_sum_ge0.
rewrite psumr_eq0 => [/allP h|i _]; last by apply: sumr_ge0 => j _; exact: nsq_ge0.
apply: (@mxof_inj _ r c) => //; apply/matrixP => i j; rewrite !mxofE.
have := h i (mem_index_enum _); rewrite /= psumr_eq0 => [/allP g|k _]; last exact: nsq_ge0.
by have := g j (mem_index_enum _); rewrite /= nsq_eq0' subr_eq0 => /eqP.
Qed.

(* the entries as real numbers *)
Definition realv r c (A B : mat) (x : ('I_r * 'I_c) * bool) : R :=
  let z := ent A x.1.1 x.1.2 - ent B x.1.1 x.1.2 in if x.2 then complex.Re z else complex.Im z.
Lemma frob_real r c (A B : mat) : frobenius r c A B = Num.sqrt (\sum_x @realv r c A B x ^+ 2).
Proof.
congr Num.sqrt; rewrite pair_big /= -(pair_bigA _ (fun p b => realv A B (p, b) ^+ 2)) /=.
by apply: eq_bigr => -[i j] _; rewrite big_bool.
Qed.

Lemma frob_tri r c (A B D : mat) : frobenius r c A D <= frobenius r c A B + frobenius r c B D.
Proof.
rewrite !frob_real; have e x : @realv r c A D x = realv A B x + realv B D x.
  by rewrite /realv; case: x => [[i j] []] /=; rewrite -raddfD /= addrA subrK.
under eq_bigr do rewrite e; exact: minkowski.
Qed.

Lemma frob_mx r c (A B : mat) :
  ((frobenius r c A B) ^+ 2)%:C%C = \tr (adj (mxof r c A - mxof r c B) *m (mxof r c A - mxof r c B)) :> C.
Proof.
rewrite /frobenius sqr_sqrtr ?frob_sum_ge0 // /mxtrace rmorph_sum.
under eq_bigr do rewrite rmorph_sum.
rewrite exchange_big; apply: eq_bigr => j _; rewrite mxE; apply: eq_bigr => i _.
by rewrite adjE !mxE; exact: nsqE.
Qed.

Lemma frob_left r c (U A B X Y : mat) : unitary r U -> mxof r c X = mxof r r U *m mxof r c A -> mxof r c Y = mxof r r U *m mxof r c B ->
  frobenius r c X Y = frobenius r c A B.
Proof.
move=> /unitaryP[_ uU] eX eY; apply/eqP; rewrite -(@eqr_expn2 _ 2) ?frob_ge0 //; apply/eqP.
apply: (@complexI R); rewrite !frob_mx eX eY -mulmxBr adjM; congr (\tr _).
by rewrite -mulmxA [X in _ *m X]mulmxA uU mul1mx.
Qed.

Lemma frob_right r c (U A B X Y : mat) : unitary c U -> mxof r c X = mxof r c A *m mxof c c U -> mxof r c Y = mxof r c B *m mxof c c U ->
  frobenius r c X Y = frobenius r c A B.
Proof.
move=> /unitaryP[_ uU] eX eY; apply/eqP; rewrite -(@eqr_expn2 _ 2) ?frob_ge0 //; apply/eqP.
apply: (@complexI R); rewrite !frob_mx eX eY -mulmxBl adjM.
by rewrite -mulmxA mxtrace_mulC -!mulmxA (adj_mul1C uU) mulmx1.
Qed.

(* |sum z w|^2 <= sum |z|^2 sum |w|^2 *)
Lemma nsqM (z w : C) : nsq (z * w) = nsq z * nsq w.
Proof. by case: z w => [a b] [x y]; rewrite /nsq /=; ring. Qed.
Lemma abs_ge0 (z : C) : 0 <= py_abs z. Proof. exact: sqrtr_ge0. Qed.

Lemma nsq_sum_le n (z : 'I_n -> C) : nsq (\sum_i z i) <= (\sum_i Num.sqrt (nsq (z i))) ^+ 2.
Proof.
rewrite -[X in X <= _]sqr_sqrtr ?nsq_ge0 // ler_expn2r ?nnegrE ?sqrtr_ge0 ?sumr_ge0 // => [i _|]; first exact: sqrtr_ge0.
have tri (u v : C) : Num.sqrt (nsq (u + v)) <= Num.sqrt (nsq u) + Num.sqrt (nsq v).
  have := @minkowski R [finType of bool] (fun b => if b then complex.Re u else complex.Im u) (fun b => if b then complex.Re v else complex.Im v).
  by rewrite !big_bool /=; case: u v => [a b] [x y].
elim: n z => [|n IH] z; first by rewrite !big_ord0 /nsq /= expr0n addr0 sqrtr0.
rewrite !big_ord_recl; apply: le_trans (tri _ _) _; rewrite ler_add2l; exact: IH.
Qed.

Lemma nsq_cs n (z w : 'I_n -> C) : nsq (\sum_i z i * w i) <= (\sum_i nsq (z i)) * (\sum_i nsq (w i)).
Proof.
apply: le_trans (nsq_sum_le _) _.
under eq_bigr do rewrite nsqM sqrtrM ?nsq_ge0 //.
apply: le_trans (cauchy_schwarz _ _) _.
rewrite le_eqVlt; apply/orP; left; apply/eqP; congr (_ * _); apply: eq_bigr => i _; by rewrite sqr_sqrtr ?nsq_ge0.
Qed.

Lemma frob_action r c (A B : mat) (v : nat -> C) :
  vec_length r (fun i => \sum_(j < c) ent A i j * v j - \sum_(j < c) ent B i j * v j) <= frobenius r c A B * vec_length c v.
Proof.
rewrite /vec_length /frobenius -sqrtrM ?frob_sum_ge0 // ler_wsqrtr // mulr_suml; apply: ler_sum => i _.
by rewrite -sumrB; under eq_bigr do rewrite -mulrBl; exact: nsq_cs.
Qed.

Lemma frob_entry r c (A B : mat) (i j : nat) : (i < r)%N -> (j < c)%N ->
  py_abs (ent A i j - ent B i j) <= frobenius r c A B.
Proof.
move=> il jl; apply: ler_wsqrtr; rewrite (bigD1 (Ordinal il)) //= (bigD1 (Ordinal jl)) //= -addrA ler_addl.
by apply: addr_ge0; apply: sumr_ge0 => k _; [|apply: sumr_ge0 => l _]; exact: nsq_ge0.
Qed.
End Dist.
