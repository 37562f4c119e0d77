(* Final forms of the lemmas behind the property theorems: C38, C39 (Fourier and phase matrices). *)
From mathcomp Require Import all_ssreflect all_algebra complex ring zify.
From Verif Require Import Base SpecStates Combi SpecPerm SpecBS BsMath BsComb BsNorm ModelStates ModelPerm ModelDist SpecProb ProbMath ModelGcc ModelGccB SpecGcc ModelNet SpecNet ProofNet7 RealInst RealCis.
Set Implicit Arguments.
Unset Strict Implicit.
Unset Printing Implicit Defensive.
Import Order.TTheory GRing.Theory Num.Theory.
Local Open Scope ring_scope.
Local Open Scope py_scope.

Lemma C38_exponential_exists_lemma :
  cis_ok real_cis.
Proof.
exact: real_cis_ok.
Qed.

Lemma C38_qft_unitary_lemma :
  forall (R : rcfType) (cis : R -> (ComplexField.complex_numFieldType R)) (n : nat), cis_ok cis ->
  unitary n (compute_qft_matrix cis n) /\
  (forall i j : nat, (i < n)%N -> (j < n)%N ->
     ent (compute_qft_matrix cis n) i j = cis ((i * j)%:R / n%:R) / (Num.sqrt n%:R)%:C%C).
Proof.
move=> R cis n ok; case: (posnP n) => [->|n0]; first by split.
by split; [exact: qft_unitary|move=> i j; exact: qft_ent].
Qed.

Lemma C38_qft_first_modes_lemma :
  forall (R : rcfType) (cis : R -> (ComplexField.complex_numFieldType R)) (m tot : nat), cis_ok cis -> (m <= tot)%N ->
  exists Q, [/\ qft_matrix_first cis m tot = Ok Q, unitary tot Q
  & forall i j : nat, (i < tot)%N -> (j < tot)%N ->
    ent Q i j = if (i < m)%N && (j < m)%N then ent (compute_qft_matrix cis m) i j else (i == j)%:R].
Proof.
move=> R cis m tot ok le; have [Q [eQ _ h]] := qft_firstE cis le.
by have [Q' []] := qft_first_unitary ok le; rewrite eQ => -[<-] u; exists Q.
Qed.

Lemma C39_phases_lemma :
  forall (R : rcfType) (cis : R -> (ComplexField.complex_numFieldType R)) (m tot : nat) (draws : seq R), cis_ok cis -> (m <= tot)%N ->
  exists P, [/\ phases_matrix_first cis m tot draws = Ok P, unitary tot P,
    (forall i j : nat, (i < tot)%N -> (j < tot)%N -> i != j -> ent P i j = 0),
    (forall i : nat, (i < m)%N -> ent P i i = cis draws`_i /\ nsq (ent P i i) = 1)
  & forall i : nat, (m <= i < tot)%N -> ent P i i = 1].
Proof.
move=> R cis m tot d ok le; have [P [eP _ h]] := phasesE cis le d.
have [P' []] := phases_unitary ok le d; rewrite eP => -[<-] u; exists P; split=> //.
- by move=> i j il jl /negPf ne; rewrite h // ne.
- move=> i im; have it := leq_trans im le; rewrite h // eqxx im; split=> //; by case: ok.
- by move=> i /andP[mi it]; rewrite h // eqxx ltnNge mi.
Qed.
