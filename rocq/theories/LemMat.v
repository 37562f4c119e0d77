(* Final forms of the lemmas behind the property theorems: C61 (the distance of matrices). *)
From mathcomp Require Import all_ssreflect all_algebra complex ring zify.
From Verif Require Import Base SpecStates Combi SpecPerm SpecBS ModelStates ModelPerm ModelDist SpecProb ModelGcc ModelGccB ModelNet SpecMat ModelMat ProofNet1 ProofMat.
Set Implicit Arguments.
Unset Strict Implicit.
Unset Printing Implicit Defensive.
Import Order.TTheory GRing.Theory Num.Theory.
Local Open Scope ring_scope.
Local Open Scope py_scope.

Lemma C61_distance_lemma :
  forall (R : rcfType) (r c : nat) (A B : seq (seq (ComplexField.complex_numFieldType R))), is_matrix r c A -> is_matrix r c B ->
  exists d, [/\ matrix_distance A B = Ok d, d = frobenius r c A B, 0 <= d, matrix_distance B A = Ok d & d = 0 <-> A = B].
Proof.
move=> R r c A B rA rB; exists (frobenius r c A B); split=> //.
- exact: matrix_distanceE.
- exact: frob_ge0.
- by rewrite (matrix_distanceE rB rA) frob_sym.
exact: frob_eq0.
Qed.

Lemma C61_triangle_lemma :
  forall (R : rcfType) (r c : nat) (A B D : seq (seq (ComplexField.complex_numFieldType R))) a b d, is_matrix r c A -> is_matrix r c B -> is_matrix r c D ->
  matrix_distance A B = Ok a -> matrix_distance B D = Ok b -> matrix_distance A D = Ok d -> d <= a + b.
Proof.
move=> R r c A B D a b d rA rB rD; rewrite (matrix_distanceE rA rB) (matrix_distanceE rB rD) (matrix_distanceE rA rD).
by move=> -[<-] [<-] [<-]; exact: frob_tri.
Qed.

Lemma C61_unitary_lemma :
  forall (R : rcfType) (r c : nat) (A B U V : seq (seq (ComplexField.complex_numFieldType R))), (0 < r)%N -> (0 < c)%N -> is_matrix r c A -> is_matrix r c B ->
  unitary r U -> unitary c V ->
  exists A' B' A'' B'', [/\ np_matmul U A = Ok A', np_matmul U B = Ok B', np_matmul A V = Ok A'', np_matmul B V = Ok B''
    & matrix_distance A' B' = matrix_distance A B /\ matrix_distance A'' B'' = matrix_distance A B].
Proof.
move=> R r c A B U V r0 c0 rA rB uU uV.
have [A' [e1 r1 m1]] := matmul_ok (uU.1 : is_rect r r U) (rA : is_rect r c A) r0.
have [B' [e2 r2 m2]] := matmul_ok (uU.1 : is_rect r r U) (rB : is_rect r c B) r0.
have [A'' [e3 r3 m3]] := matmul_ok (rA : is_rect r c A) (uV.1 : is_rect c c V) c0.
have [B'' [e4 r4 m4]] := matmul_ok (rB : is_rect r c B) (uV.1 : is_rect c c V) c0.
exists A', B', A'', B''; split=> //; rewrite (matrix_distanceE rA rB) (matrix_distanceE r1 r2) (matrix_distanceE r3 r4).
by rewrite (frob_left uU m1 m2) (frob_right uV m3 m4).
Qed.

Lemma C61_bounds_lemma :
  forall (R : rcfType) (r c : nat) (A B : seq (seq (ComplexField.complex_numFieldType R))) (v : nat -> R[i]) d, is_matrix r c A -> is_matrix r c B ->
  matrix_distance A B = Ok d ->
  (forall i j : nat, (i < r)%N -> (j < c)%N -> py_abs (ent A i j - ent B i j) <= d) /\
  vec_length r (fun i => \sum_(j < c) ent A i j * v j - \sum_(j < c) ent B i j * v j) <= d * vec_length c v.
Proof.
move=> R r c A B v d rA rB; rewrite (matrix_distanceE rA rB) => -[<-]; split=> [i j|]; first exact: frob_entry.
exact: frob_action.
Qed.

Lemma C61_shapes_lemma :
  forall (R : rcfType) (r c r' c' : nat) (A B : seq (seq (ComplexField.complex_numFieldType R))), (0 < r)%N -> (0 < r')%N -> is_matrix r c A -> is_matrix r' c' B ->
  [&& r != r', r != 1 & r' != 1]%N || [&& c != c', c != 1 & c' != 1]%N ->
  matrix_distance A B = Err ValueError.
Proof.
move=> R r c r' c' A B r0 r0' rA rB; have /andP[/eqP sA _] := rA; have /andP[/eqP sB _] := rB.
have cA := rect_cols (rA : is_rect _ _ A) r0; have cB := rect_cols (rB : is_rect _ _ B) r0'.
rewrite /matrix_distance /np_sub cA cB sA sB /bc_dim orbC => /orP[/and3P[n1 n2 n3]|/and3P[n1 n2 n3]].
  by rewrite (negPf n1) (negPf n2) (negPf n3).
by rewrite (negPf n1) (negPf n2) (negPf n3); case: (c == c') => //=; case: (c == 1%N) => //=; case: (c' == 1%N).
Qed.

Lemma C61_broadcast_refuted_lemma :
  forall (R : rcfType), exists A B : seq (seq (ComplexField.complex_numFieldType R)), [/\ is_matrix 1 1 A, is_matrix 2 2 B, A <> B & matrix_distance A B = Ok 0].
Proof.
move=> R; exists [:: [:: 1]], [:: [:: 1; 1]; [:: 1; 1]]; split=> //.
by rewrite /matrix_distance /np_sub /bc_dim /= /bc_get /np_get /= subrr /np_norm /= /py_abs /= expr0n /= addr0 sqrtr0 expr0n /= !addr0 sqrtr0.
Qed.
