(* A decomposition routine exists; the transmissivities are the eigenvalues. *)
From mathcomp Require Import all_ssreflect all_algebra complex ring.
From Verif Require Import Base SpecPerm SpecBS SpecNet ModelPerm ModelNet BsMath ProofNet1 ProofNet2 ProofNet3 ProofSvd.
Set Implicit Arguments.
Unset Strict Implicit.
Unset Printing Implicit Defensive.
Import Order.TTheory GRing.Theory Num.Theory.
Local Open Scope ring_scope.
Local Open Scope py_scope.

Section SvdFun.
Variable R : rcfType.
Notation C := (ComplexField.complex_numFieldType R).
Notation mat := (seq (seq C)).

Definition svd_pred (M : mat) (x : mat * seq R * mat) : bool :=
  let m := size M in let: (V, s, U) := x in
  is_square m M ==> [&& is_square m V, is_square m U, adj (mxof m m V) *m mxof m m V == 1%:M,
    adj (mxof m m U) *m mxof m m U == 1%:M, size s == m, sorted (fun x y => y <= x) s, all (fun x => 0 <= x) s
  & mxof m m M == mxof m m V *m rdiag (fun i : 'I_m => s`_i) *m mxof m m U].

Definition tabmx m (A : 'M[C]_m) : mat :=
  [seq [seq if insub i is Some i' then if insub j is Some j' then A i' j' else 0 else 0
       | j <- iota 0 m] | i <- iota 0 m].

Lemma mxof_tabmx m (A : 'M[C]_m) : mxof m m (tabmx A) = A.
Proof.
by apply/matrixP=> i j; rewrite mxE ent_tab // !valK.
Qed.

Lemma svd_predP M : exists x, svd_pred M x.
Proof.
have [V [U [s [uV uU so s0 e]]]] := svd_sorted_exists (mxof (size M) (size M) M).
exists (tabmx V, val s, tabmx U); rewrite /svd_pred; apply/implyP=> _.
rewrite !mxof_tabmx uV uU !eqxx so s0 size_tuple eqxx /is_square.
rewrite -!/(is_rect _ _ _) !rect_tab /= e; apply/eqP; congr (_ *m _ *m _); apply: eq_rdiag => i.
by rewrite (tnth_nth 0).
Qed.

Definition some_svd (M : mat) : res (mat * seq R * mat) := Ok (xchoose (svd_predP M)).

Lemma some_svd_ok : svd_ok some_svd.
Proof.
move=> m M m0 sq; have sM : size M = m by case/andP: sq => /eqP.
have := xchooseP (svd_predP M); rewrite /some_svd; case: (xchoose _) => [[V s] U].
rewrite /svd_pred sM sq /= => /and5P[sV sU /eqP uV /eqP uU /and4P[/eqP ss so s0 /eqP e]].
exists V, s, U; split=> //; split=> //; try exact/unitaryP.
move=> i j il jl; have := congr1 (fun X : 'M_m => X (Ordinal il) (Ordinal jl)) e.
by rewrite !mxE => ->; apply: eq_bigr => k _; rewrite mul_mx_diag !mxE.
Qed.

End SvdFun.

Section CharPoly.
Variable F : fieldType.
Lemma char_poly_sim n (A P Q : 'M[F]_n) : P *m Q = 1%:M -> char_poly (P *m A *m Q) = char_poly A.
Proof.
move=> e; rewrite /char_poly.
have -> : char_poly_mx (P *m A *m Q) = map_mx polyC P *m char_poly_mx A *m map_mx polyC Q.
  rewrite /char_poly_mx !map_mxM mulmxBr mulmxBl; congr (_ - _).
  by rewrite mul_mx_scalar -scalemxAl -map_mxM e map_mx1 scalemx1.
rewrite !det_mulmx mulrAC -det_mulmx -map_mxM e map_mx1 det1 mul1r.
by [].
Qed.
End CharPoly.

Section Trans.
Variable R : rcfType.
Notation C := (ComplexField.complex_numFieldType R).
Notation mat := (seq (seq C)).
Variables (svd : mat -> res (mat * seq R * mat)) (m : nat) (M : mat).
Hypotheses (sv : svd_ok svd) (m0 : (0 < m)%N).

Definition gram : 'M[C]_m := \matrix_(i, j) \sum_(k < m) conjc (ent M k i) * ent M k j.

Lemma gramE : gram = adj (mxof m m M) *m mxof m m M.
Proof. by apply/matrixP=> i j; rewrite !mxE; apply: eq_bigr => k _; rewrite adjE !mxE. Qed.

Lemma gram_svd V s U : is_svd m M V s U ->
  gram = adj (mxof m m U) *m rdiag (fun i : 'I_m => s`_i ^+ 2) *m mxof m m U.
Proof.
move=> isv; rewrite gramE (svd_mx isv); case: isv => /unitaryP[_ uV] _ _ _ _.
rewrite !adjM adj_rdiag !mulmxA -(mulmxA (_ *m _) (adj _)) uV mulmx1 -(mulmxA (adj _) (rdiag _)) rdiagM.
by congr (_ *m _ *m _); apply: eq_rdiag => i; rewrite expr2.
Qed.

Lemma transmissivities_char : is_square m M ->
  exists l, modes_transmissivities svd M = Ok l /\ char_poly gram = \prod_(x <- l) ('X - (x%:C%C)%:P).
Proof.
move=> sq; have [V [s [U [e isv]]]] := sv m0 sq.
rewrite /modes_transmissivities e [rbind _ _]/= /=; eexists; split; first by reflexivity.
have ss : size s = m by case: isv.
rewrite (gram_svd isv) char_poly_sim; last by case: isv => _ /unitaryP[].
rewrite char_poly_trig; last by apply/is_trig_mxP=> i j ij; rewrite !mxE -val_eqE ltn_eqF.
rewrite big_map (perm_big s) ?perm_rev // (big_nth 0) big_mkord ss; apply: eq_bigr => i _.
by rewrite !mxE eqxx mulr1n.
Qed.

Lemma transmissivities_uniform (eta : R) : is_square m M ->
  (forall i i', (i < m)%N -> (i' < m)%N -> \sum_(k < m) conjc (ent M k i) * ent M k i' = (i == i')%:R * eta%:C%C) ->
  modes_transmissivities svd M = Ok (nseq m eta).
Proof.
move=> sq h; have [V [s [U [e isv]]]] := sv m0 sq.
rewrite /modes_transmissivities e [rbind _ _]/= /=; congr Ok.
have ss : size s = m by case: isv.
have eg : gram = eta%:C%C%:M.
  apply/matrixP=> i j; rewrite !mxE h // -val_eqE.
  by case: (i == j :> nat); rewrite ?mul1r ?mul0r ?mulr1n ?mulr0n.
have : rdiag (fun i : 'I_m => s`_i ^+ 2) = rdiag (fun=> eta).
  have := gram_svd isv; rewrite eg; case: isv => _ /unitaryP[_ uU] _ _ _ eD.
  have uU' := adj_mul1C uU.
  have := congr1 (fun X => mxof m m U *m X *m adj (mxof m m U)) eD.
  rewrite !mulmxA uU' mul1mx -[in RHS]mulmxA uU' mulmx1 => <-.
  rewrite mul_mx_scalar -scalemxAl uU' scalemx1.
  by apply/matrixP=> i j; rewrite !mxE.
move/rdiag_inj => es.
apply: (@eq_from_nth _ 0); first by rewrite size_map size_rev size_nseq.
move=> i; rewrite size_map size_rev ss => il.
rewrite (nth_map 0) ?size_rev ?ss // nth_nseq il nth_rev ?ss //.
have jl : (m - i.+1 < m)%N by rewrite ltn_subrL m0.
exact: (es (Ordinal jl)).
Qed.
End Trans.

Section Sub.
Variable R : rcfType.
Notation C := (ComplexField.complex_numFieldType R).
Notation mat := (seq (seq C)).

Lemma gram_subunitary m (M : mat) (eta : R) : is_square m M -> eta <= 1 ->
  (forall i i', (i < m)%N -> (i' < m)%N -> \sum_(k < m) conjc (ent M k i) * ent M k i' = (i == i')%:R * eta%:C%C) ->
  subunitary m M.
Proof.
move=> sq e1 h; split=> // v.
have -> : \sum_(i < m) nsq (\sum_(j < m) ent M i j * v j) = eta * \sum_(j < m) nsq (v j).
  apply: (@complexI R); rewrite !(rmorph_sum, rmorphM) /=.
  transitivity (\sum_(i < m) \sum_(j < m) \sum_(j' < m) conjc (v j) * v j' * (conjc (ent M i j) * ent M i j')).
    apply: eq_bigr => i _; rewrite nsqE (rmorph_sum (@conjc_rmorphism R)) mulr_suml; apply: eq_bigr => j _.
    rewrite mulr_sumr; apply: eq_bigr => j' _; rewrite (rmorphM (@conjc_rmorphism R)) mulrACA mulrC.
    by rewrite -!/(conjc _).
  rewrite exchange_big mulr_sumr; apply: eq_bigr => j _; rewrite exchange_big /=.
  rewrite (bigD1 j) //= [X in _ + X]big1 ?addr0 => [|j' ne].
    by rewrite -mulr_sumr h // eqxx mul1r nsqE mulrC.
  rewrite -mulr_sumr h // [val j == val j'](_ : _ = false) ?mul0r ?mulr0 //.
  by apply/eqP => e; case/eqP: ne; apply: val_inj.
by rewrite -[leRHS]mul1r ler_wpmul2r // sumr_ge0 // => j _; exact: nsq_ge0.
Qed.

Lemma scaled_gram m (M V : mat) (x : R) :
  (forall i j, (i < m)%N -> (j < m)%N -> ent M i j = x%:C%C * ent V i j) ->
  unitary m V ->
  forall i i', (i < m)%N -> (i' < m)%N -> \sum_(k < m) conjc (ent M k i) * ent M k i' = (i == i')%:R * (x ^+ 2)%:C%C.
Proof.
move=> h [_ o] i i' il il'; rewrite -(o _ _ il il') mulr_suml; apply: eq_bigr => k _.
have e (u v : C) : conjc (x%:C%C * u) * (x%:C%C * v) = conjc u * v * (x ^+ 2)%:C%C.
  have -> : conjc (x%:C%C * u) = x%:C%C * conjc u.
    by rewrite -[LHS]/(conjc_rmorphism R _) rmorphM; congr (_ * _); exact: conjc_real.
  have -> : (x ^+ 2)%:C%C = x%:C%C * x%:C%C :> C by rewrite expr2 -rmorphM.
  by rewrite mulrACA mulrC.
by rewrite !h // e.
Qed.
End Sub.
