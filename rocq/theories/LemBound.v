(* Final forms of the lemmas behind the property theorems: C47, C57 (bounds on the number of samples, on the real numbers of the standard library). *)
From Coq Require Import Reals ZArith.
From mathcomp Require Import all_ssreflect all_algebra zify.
From Verif Require Import Base SpecProb SpecQC ModelQC ModelBound RealInst ProbMath ProofQC2 ProofBound ProofHoeff2.
Set Implicit Arguments.
Unset Strict Implicit.
Unset Printing Implicit Defensive.
Import GRing.Theory Num.Theory.
Local Open Scope ring_scope.

Lemma C47_minimal_samples_lemma :
  forall (k : Z) (p d : R), Z.le 0 k -> Rlt 0 p -> Rle p 1 -> Rlt 0 d ->
  let N := minimal_samples k p d in
  [/\ Z.le 1 N, Rlt (tv_error_bound k N p) d
    & forall N', Z.le 1 N' -> Z.lt N' N -> Rle d (tv_error_bound k N' p)].
Proof.
move=> k p d k0 p0 p1 d0 N; have [h1 [h2 h3]] := minimalE k p d k0 (conj p0 p1) d0; split=> // N' a b.
exact: (h3 N' (conj a b)).
Qed.

Lemma C47_any_arguments_lemma :
  forall (k : Z) (p d : R),
  let x := Rdiv (Rplus (Ropp (ln p)) (Rmult (IZR k) (ln 2))) (Rmult 2 (pow d 2)) in
  let n := IZR (Z.sub (minimal_samples k p d) 1) in
  [/\ Rle (Rabs n) (Rabs x), Rlt (Rabs x) (Rplus (Rabs n) 1) & Rle 0 (Rmult n x)].
Proof.
move=> k p d x n; by have [? [? ?]] := minimal_any k p d.
Qed.

Lemma C47_monotone_lemma :
  forall (k k' N N' : Z) (p p' : R), Z.le 0 k -> Z.le k k' -> Z.le 1 N' -> Z.le N' N -> Rlt 0 p' -> Rle p' p -> Rle p 1 ->
  Rle (tv_error_bound k N p) (tv_error_bound k' N' p').
Proof.
move=> k k' N N' p p' h1 h2 h3 h4 h5 h6 h7; exact: (bound_mono k k' N N' p p' (conj h1 h2) (conj h3 h4) (conj h5 h6) h7).
Qed.

Lemma C57_error_bound_lemma :
  forall (T : eqType) (S : seq T) (P : T -> R_rcfType) (N : nat) (p : R_rcfType), uniq S -> (forall t, t \in S -> 0 <= P t) -> \sum_(t <- S) P t = 1 ->
  (0 < N)%N -> Rlt 0 p -> Rle p 1 ->
  iid_exp S P N (fun L => if tvd_lists [seq (count_mem t L)%:R / (size L)%:R | t <- S] [seq P t | t <- S] is Ok x
              then if (tv_error_bound (Z.of_nat (size S)) (Z.of_nat N) p : R_rcfType) <= x then 1 else 0 else 1) <= p.
Proof.
move=> T S P N p uS P0 P1 N0 p0 p1; rewrite -[X in _ <= X]/p.
have := error_bound_sound uS P0 P1 N0 p0 p1; congr (_ <= _); apply: iid_exp_ext => L.
rewrite tvd_lists_map -(freq_half S P); by case: ifP.
Qed.

Lemma C57_minimal_samples_lemma :
  forall (T : eqType) (S : seq T) (P : T -> R_rcfType) (p d : R_rcfType), uniq S -> (forall t, t \in S -> 0 <= P t) -> \sum_(t <- S) P t = 1 ->
  Rlt 0 p -> Rle p 1 -> Rlt 0 d ->
  iid_exp S P (Z.to_nat (minimal_samples (Z.of_nat (size S)) p d)) (fun L => if tvd_lists [seq (count_mem t L)%:R / (size L)%:R | t <- S] [seq P t | t <- S] is Ok x
              then if d <= x then 1 else 0 else 1) <= p.
Proof.
move=> T S P p d uS P0 P1 p0 p1 d0.
have := minimal_sound uS P0 P1 p0 p1 d0; congr (_ <= _); apply: iid_exp_ext => L.
rewrite tvd_lists_map -(freq_half S P); by case: ifP.
Qed.
