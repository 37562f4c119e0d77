(* Property theorems: C38, C39 (Fourier and phase matrices).  Only statements; proofs elsewhere. *)
From mathcomp Require Import all_ssreflect all_algebra complex ring zify.
From Verif Require Import Base SpecStates Combi SpecPerm SpecBS BsMath BsComb BsNorm ModelStates ModelPerm ModelDist SpecProb ProbMath ModelGcc ModelGccB SpecGcc ModelNet SpecNet RealInst RealCis LemPhase.
Set Implicit Arguments.
Unset Strict Implicit.
Unset Printing Implicit Defensive.
Import Order.TTheory GRing.Theory Num.Theory.
Local Open Scope ring_scope.
Local Open Scope py_scope.

(* C38, C39: x |-> exp(2 pi i x) on the real numbers of the standard library is as assumed below *)
Theorem C38_exponential_exists :
  cis_ok real_cis.
Proof. exact C38_exponential_exists_lemma. Qed.
Print Assumptions C38_exponential_exists.

(* C38 *)
Theorem C38_qft_unitary :
  forall (R : rcfType) (cis : R -> (ComplexField.complex_numFieldType R)) (n : nat), cis_ok cis ->
  unitary n (compute_qft_matrix cis n) /\
  (forall i j : nat, (i < n)%N -> (j < n)%N ->
     ent (compute_qft_matrix cis n) i j = cis ((i * j)%:R / n%:R) / (Num.sqrt n%:R)%:C%C).
Proof. exact C38_qft_unitary_lemma. Qed.
Print Assumptions C38_qft_unitary.

Example C38_example (R : rcfType) (cis : R -> (ComplexField.complex_numFieldType R)) : cis_ok cis ->
  ent (compute_qft_matrix cis 2) 1 1 = -1 / (Num.sqrt 2%:R)%:C%C.
Proof.
move=> ok; have [_ /(_ 1%N 1%N isT isT) ->] := C38_qft_unitary 2 ok.
congr (_ / _); have [D _ n1] := ok.
have e : cis ((1 * 1)%:R / 2%:R) ^+ 2 = 1.
  rewrite expr2 -D -mulrDl -natrD; apply/(n1 2%N 2%N isT); exact: dvdnn.
have ne : cis ((1 * 1)%:R / 2%:R) != 1 by apply/eqP=> /(n1 2%N _ isT).
by move/eqP: e; rewrite sqrf_eq1 (negPf ne) => /eqP.
Qed.

(* C38: the Fourier matrix on the first m modes, the identity on the others *)
Theorem C38_qft_first_modes :
  forall (R : rcfType) (cis : R -> (ComplexField.complex_numFieldType R)) (m tot : nat), cis_ok cis -> (m <= tot)%N ->
  exists Q, [/\ qft_matrix_first cis m tot = Ok Q, unitary tot Q
  & forall i j : nat, (i < tot)%N -> (j < tot)%N ->
    ent Q i j = if (i < m)%N && (j < m)%N then ent (compute_qft_matrix cis m) i j else (i == j)%:R].
Proof. exact C38_qft_first_modes_lemma. Qed.
Print Assumptions C38_qft_first_modes.

(* C39: for every outcome of rand *)
Theorem C39_phases :
  forall (R : rcfType) (cis : R -> (ComplexField.complex_numFieldType R)) (m tot : nat) (draws : seq R), cis_ok cis -> (m <= tot)%N ->
  exists P, [/\ phases_matrix_first cis m tot draws = Ok P, unitary tot P,
    (forall i j : nat, (i < tot)%N -> (j < tot)%N -> i != j -> ent P i j = 0),
    (forall i : nat, (i < m)%N -> ent P i i = cis draws`_i /\ nsq (ent P i i) = 1)
  & forall i : nat, (m <= i < tot)%N -> ent P i i = 1].
Proof. exact C39_phases_lemma. Qed.
Print Assumptions C39_phases.

Example C39_example (R : rcfType) (cis : R -> (ComplexField.complex_numFieldType R)) (x : R) : cis_ok cis ->
  exists P, phases_matrix_first cis 1 2 [:: x] = Ok P /\ P = [:: [:: cis x; 0]; [:: 0; 1]].
Proof. by eexists; split; first by reflexivity. Qed.
