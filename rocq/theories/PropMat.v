(* Property theorems: C61 (the distance of matrices).  Only statements; proofs elsewhere. *)
From mathcomp Require Import all_ssreflect all_algebra complex ring zify.
From Verif Require Import Base SpecStates Combi SpecPerm SpecBS ModelStates ModelPerm ModelDist SpecProb ModelGcc ModelGccB ModelNet SpecMat ModelMat LemMat.
Set Implicit Arguments.
Unset Strict Implicit.
Unset Printing Implicit Defensive.
Import Order.TTheory GRing.Theory Num.Theory.
Local Open Scope ring_scope.
Local Open Scope py_scope.

(* C61: matrices of the same shape *)
Theorem C61_distance :
  forall (R : rcfType) (r c : nat) (A B : seq (seq (ComplexField.complex_numFieldType R))), is_matrix r c A -> is_matrix r c B ->
  exists d, [/\ matrix_distance A B = Ok d, d = frobenius r c A B, 0 <= d, matrix_distance B A = Ok d & d = 0 <-> A = B].
Proof. exact C61_distance_lemma. Qed.
Print Assumptions C61_distance.

Example C61_example (R : rcfType) :
  matrix_distance [:: [:: 1; 0]; [:: 0; 1]] [:: [:: 1; 0]; [:: 0; -1]] = Ok (2%:R : R).
Proof.
have [d [-> -> _ _ _]] := @C61_distance R 2 2 [:: [:: 1; 0]; [:: 0; 1]] [:: [:: 1; 0]; [:: 0; -1]] isT isT.
congr Ok; rewrite /frobenius !big_ord_recl !big_ord0 /ent /= subrr subr0 opprK.
have -> : nsq (0 : R[i]) = 0 by rewrite /nsq /= expr0n addr0.
have -> : nsq (1 + 1 : R[i]) = 2%:R ^+ 2 by rewrite /nsq /= addr0 expr0n addr0.
by rewrite !addr0 !add0r sqrtr_sqr ger0_norm // ler0n.
Qed.

(* C61: the triangle inequality *)
Theorem C61_triangle :
  forall (R : rcfType) (r c : nat) (A B D : seq (seq (ComplexField.complex_numFieldType R))) a b d, is_matrix r c A -> is_matrix r c B -> is_matrix r c D ->
  matrix_distance A B = Ok a -> matrix_distance B D = Ok b -> matrix_distance A D = Ok d -> d <= a + b.
Proof. exact C61_triangle_lemma. Qed.
Print Assumptions C61_triangle.

(* C61: multiplying both matrices by a unitary one, from the left or from the right, does not change the distance *)
Theorem C61_unitary :
  forall (R : rcfType) (r c : nat) (A B U V : seq (seq (ComplexField.complex_numFieldType R))), (0 < r)%N -> (0 < c)%N -> is_matrix r c A -> is_matrix r c B ->
  unitary r U -> unitary c V ->
  exists A' B' A'' B'', [/\ np_matmul U A = Ok A', np_matmul U B = Ok B', np_matmul A V = Ok A'', np_matmul B V = Ok B''
    & matrix_distance A' B' = matrix_distance A B /\ matrix_distance A'' B'' = matrix_distance A B].
Proof. exact C61_unitary_lemma. Qed.
Print Assumptions C61_unitary.

(* C61: it bounds the difference of the entries, and of the images of any vector v *)
Theorem C61_bounds :
  forall (R : rcfType) (r c : nat) (A B : seq (seq (ComplexField.complex_numFieldType R))) (v : nat -> R[i]) d, is_matrix r c A -> is_matrix r c B ->
  matrix_distance A B = Ok d ->
  (forall i j : nat, (i < r)%N -> (j < c)%N -> py_abs (ent A i j - ent B i j) <= d) /\
  vec_length r (fun i => \sum_(j < c) ent A i j * v j - \sum_(j < c) ent B i j * v j) <= d * vec_length c v.
Proof. exact C61_bounds_lemma. Qed.
Print Assumptions C61_bounds.

(* C61: shapes that do not fit raise, unless one of the two lengths is 1 *)
Theorem C61_shapes :
  forall (R : rcfType) (r c r' c' : nat) (A B : seq (seq (ComplexField.complex_numFieldType R))), (0 < r)%N -> (0 < r')%N -> is_matrix r c A -> is_matrix r' c' B ->
  [&& r != r', r != 1 & r' != 1]%N || [&& c != c', c != 1 & c' != 1]%N ->
  matrix_distance A B = Err ValueError.
Proof. exact C61_shapes_lemma. Qed.
Print Assumptions C61_shapes.

(* C61: the sizes are not checked: a single row or column is stretched, and different matrices have distance 0 *)
Theorem C61_broadcast_refuted :
  forall (R : rcfType), exists A B : seq (seq (ComplexField.complex_numFieldType R)), [/\ is_matrix 1 1 A, is_matrix 2 2 B, A <> B & matrix_distance A B = Ok 0].
Proof. exact C61_broadcast_refuted_lemma. Qed.
Print Assumptions C61_broadcast_refuted.
