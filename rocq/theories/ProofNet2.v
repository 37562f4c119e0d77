(* The interferometer in the expanded space. *)
From mathcomp Require Import all_ssreflect all_algebra complex ring.
From Verif Require Import Base SpecPerm SpecBS SpecNet ModelPerm ModelNet BsMath ProofNet1.
Set Implicit Arguments.
Unset Strict Implicit.
Unset Printing Implicit Defensive.
Import Order.TTheory GRing.Theory Num.Theory.
Local Open Scope ring_scope.
Local Open Scope py_scope.

Section Adj.
Variable R : rcfType.
Notation C := (ComplexField.complex_numFieldType R).

Definition cjm : {rmorphism C -> C} := @conjc_rmorphism R.
Definition adj r c (A : 'M[C]_(r, c)) : 'M[C]_(c, r) := map_mx cjm A^T.

Lemma adjE r c (A : 'M[C]_(r, c)) i j : adj A i j = conjc (A j i). Proof. by rewrite !mxE. Qed.
Lemma adjK r c (A : 'M[C]_(r, c)) : adj (adj A) = A.
Proof. by apply/matrixP=> i j; rewrite !adjE conjcK. Qed.
Lemma adjM r k c (A : 'M[C]_(r, k)) (B : 'M[C]_(k, c)) : adj (A *m B) = adj B *m adj A.
Proof. by rewrite /adj trmx_mul map_mxM. Qed.
Lemma adj1 n : adj 1%:M = 1%:M :> 'M[C]_n. Proof. by rewrite /adj trmx1 map_mx1. Qed.
Lemma adj0 r c : adj (0 : 'M[C]_(r, c)) = 0. Proof. by rewrite /adj trmx0 map_mx0. Qed.
Lemma adj_block r r' c c' (A : 'M[C]_(r, c)) (B : 'M[C]_(r, c')) (A' : 'M[C]_(r', c)) (B' : 'M[C]_(r', c')) :
  adj (block_mx A B A' B') = block_mx (adj A) (adj A') (adj B) (adj B').
Proof. by rewrite /adj tr_block_mx map_block_mx. Qed.

Definition rdiag n (s : 'I_n -> R) : 'M[C]_n := diag_mx (\row_i (s i)%:C%C).
Lemma adj_rdiag n (s : 'I_n -> R) : adj (rdiag s) = rdiag s.
Proof.
apply/matrixP=> i j; rewrite adjE !mxE eq_sym; case: eqP => [->|_]; last by rewrite !mulr0n conjc0.
by rewrite !mulr1n conjc_real.
Qed.
Lemma rdiagM n (s t : 'I_n -> R) : rdiag s *m rdiag t = rdiag (fun i => s i * t i).
Proof.
apply/matrixP=> i j; rewrite mul_diag_mx !mxE; case: eqP => [->|_]; last by rewrite !mulr0n mulr0.
by rewrite !mulr1n rmorphM.
Qed.
Lemma rdiagD n (s t : 'I_n -> R) : rdiag s + rdiag t = rdiag (fun i => s i + t i).
Proof.
apply/matrixP=> i j; rewrite !mxE; case: eqP => [->|_]; last by rewrite !mulr0n addr0.
by rewrite !mulr1n rmorphD.
Qed.
Lemma eq_rdiag n (s t : 'I_n -> R) : s =1 t -> rdiag s = rdiag t.
Proof. by move=> e; congr diag_mx; apply/rowP=> i; rewrite !mxE e. Qed.
Lemma rdiag_inj n (s t : 'I_n -> R) : rdiag s = rdiag t -> s =1 t.
Proof.
move=> e i; have := congr1 (fun X : 'M_n => X i i) e; rewrite !mxE eqxx !mulr1n.
by move=> /(@complexI R).
Qed.
Lemma rdiag1 n : rdiag (fun=> 1) = 1%:M :> 'M_n.
Proof.
by apply/matrixP=> i j; rewrite !mxE rmorph1.
Qed.

(* unitary on lists and on matrices *)
Lemma unitaryP m (U : seq (seq C)) :
  unitary m U <-> is_square m U /\ adj (mxof m m U) *m mxof m m U = 1%:M.
Proof.
split=> [[sq H]|[sq H]]; split=> //.
  apply/matrixP=> i j; rewrite !mxE -val_eqE -(H i j) //; apply: eq_bigr => k _.
  by rewrite adjE !mxE.
move=> i i' il il'; have := congr1 (fun X : 'M_m => X (Ordinal il) (Ordinal il')) H.
rewrite !mxE /ortho_cols -val_eqE /= => <-; apply: eq_bigr => k _.
by rewrite adjE !mxE.
Qed.

Lemma adj_mul1C n (U : 'M[C]_n) : adj U *m U = 1%:M -> U *m adj U = 1%:M.
Proof. exact: mulmx1C. Qed.

Section Expand.
Variables (m : nat) (V U : 'M[C]_m) (s l : 'I_m -> R).
Hypothesis (uV : adj V *m V = 1%:M) (uU : adj U *m U = 1%:M).

Definition expand : 'M[C]_(m + m) :=
  block_mx V 0 0 1%:M *m block_mx (rdiag s) (rdiag l) (rdiag l) (rdiag s) *m block_mx U 0 0 1%:M.

Lemma expandE : expand = block_mx (V *m rdiag s *m U) (V *m rdiag l) (rdiag l *m U) (rdiag s).
Proof.
rewrite /expand !mulmx_block !mul0mx !mulmx0 !mul1mx !mulmx1 !addr0 !add0r.
by [].
Qed.

Lemma expand_gram : (forall i, s i ^+ 2 + l i ^+ 2 = 1) ->
  adj expand *m expand = block_mx 1%:M (adj U *m rdiag (fun i => s i * l i + s i * l i))
    (rdiag (fun i => s i * l i + s i * l i) *m U) 1%:M.
Proof.
move=> sl; rewrite expandE adj_block !adjM !adj_rdiag mulmx_block.
have sl1 : rdiag (fun i => s i * s i + l i * l i) = 1%:M.
  by rewrite -rdiag1; apply: eq_rdiag => i; rewrite -!expr2 sl.
have sl2 : rdiag (fun i => l i * l i + s i * s i) = 1%:M.
  by rewrite -rdiag1; apply: eq_rdiag => i; rewrite addrC -!expr2 sl.
congr block_mx.
- rewrite !mulmxA -(mulmxA (adj U *m rdiag s)) uV mulmx1 -!mulmxA !(mulmxA (rdiag _) (rdiag _)) !rdiagM.
  by rewrite -mulmxDr -mulmxDl rdiagD sl1 mul1mx uU.
- rewrite !mulmxA -(mulmxA (adj U *m rdiag s)) uV mulmx1 -!mulmxA !rdiagM -mulmxDr rdiagD.
  by congr (_ *m _); apply: eq_rdiag => i; rewrite [l i * s i]mulrC.
- rewrite !mulmxA -(mulmxA (rdiag l)) uV mulmx1 !rdiagM -mulmxDl rdiagD.
  by congr (_ *m _); apply: eq_rdiag => i; rewrite [l i * s i]mulrC.
- by rewrite !mulmxA -(mulmxA (rdiag l)) uV mulmx1 !rdiagM rdiagD sl2.
Qed.

Lemma expand_unitary : (forall i, s i ^+ 2 + l i ^+ 2 = 1) ->
  adj expand *m expand = 1%:M <-> forall i, s i * l i = 0.
Proof.
move=> sl; rewrite expand_gram // (scalar_mx_block m m); split=> [e i|e].
  have [_ h _ _] := eq_block_mx e.
  have {h}h : rdiag (fun i => s i * l i + s i * l i) = 0.
    have := congr1 (mulmx U) h; rewrite mulmxA (adj_mul1C uU) mul1mx mulmx0 //.
  have := congr1 (fun X : 'M_m => X i i) h; rewrite !mxE eqxx mulr1n => /(@complexI R _ 0).
  by rewrite -mulr2n => /eqP; rewrite mulrn_eq0 => /orP[//|/eqP].
have -> : rdiag (fun i => s i * l i + s i * l i) = 0.
  apply/matrixP=> i j; rewrite !mxE e addr0; case: eqP => _; rewrite ?mulr0n ?mulr1n //.
by rewrite mulmx0 mul0mx.
Qed.

(* V diag(s) U is a partial isometry iff every s is 0 or 1 *)
Lemma svd_partial : (forall i, 0 <= s i) ->
  let M := V *m rdiag s *m U in
  M *m adj M *m M = M <-> forall i, s i = 0 \/ s i = 1.
Proof.
move=> s0 M; have eM : M *m adj M *m M = V *m rdiag (fun i => s i ^+ 3) *m U.
  rewrite /M !adjM adj_rdiag !mulmxA -(mulmxA (V *m rdiag s) U) (adj_mul1C uU) mulmx1.
  rewrite -(mulmxA _ (adj V) V) uV mulmx1 -!mulmxA (mulmxA (rdiag _) (rdiag _)) !rdiagM (mulmxA (rdiag _)) rdiagM.
  by rewrite !mulmxA; congr (_ *m _ *m _); apply: eq_rdiag => i; rewrite mulrC !exprS expr0 mulr1 mulrA.
rewrite eM; split=> [e i|e].
  have {}e : rdiag (fun i => s i ^+ 3) = rdiag s.
    have := congr1 (fun X => adj V *m X *m adj U) e.
    have h X : adj V *m (V *m X *m U) *m adj U = X.
      by rewrite -!mulmxA (adj_mul1C uU) mulmx1 mulmxA uV mul1mx.
    by rewrite /M !h.
  have := rdiag_inj e i; move: (s i) (s0 i) => x x0 /eqP.
  have -> : (x ^+ 3 == x) = (x * (x ^+ 2 - 1) == 0) by rewrite mulrBr mulr1 -exprS subr_eq0.
  rewrite mulf_eq0 => /orP[/eqP|]; first by left.
  by rewrite subr_eq0 sqrp_eq1 // => /eqP; right.
congr (_ *m _ *m _); apply: eq_rdiag => i; case: (e i) => ->; first by rewrite expr0n.
by rewrite expr1n.
Qed.

End Expand.
End Adj.
