(* Property theorems: C47, C57 (bounds on the number of samples, on the real numbers of the standard library).  Only statements; proofs elsewhere. *)
From Coq Require Import Reals ZArith.
From mathcomp Require Import all_ssreflect all_algebra zify.
From Verif Require Import Base SpecProb SpecQC ModelQC ModelBound RealInst LemBound.
Set Implicit Arguments.
Unset Strict Implicit.
Unset Printing Implicit Defensive.
Import GRing.Theory Num.Theory.
Local Open Scope ring_scope.

(* C47: every k >= 0, 0 < p <= 1 and d > 0 *)
Theorem C47_minimal_samples :
  forall (k : Z) (p d : R), Z.le 0 k -> Rlt 0 p -> Rle p 1 -> Rlt 0 d ->
  let N := minimal_samples k p d in
  [/\ Z.le 1 N, Rlt (tv_error_bound k N p) d
    & forall N', Z.le 1 N' -> Z.lt N' N -> Rle d (tv_error_bound k N' p)].
Proof. exact C47_minimal_samples_lemma. Qed.
Print Assumptions C47_minimal_samples.

(* C47: any arguments, also meaningless ones: one more than the quotient cut off towards zero *)
Theorem C47_any_arguments :
  forall (k : Z) (p d : R),
  let x := Rdiv (Rplus (Ropp (ln p)) (Rmult (IZR k) (ln 2))) (Rmult 2 (pow d 2)) in
  let n := IZR (Z.sub (minimal_samples k p d) 1) in
  [/\ Rle (Rabs n) (Rabs x), Rlt (Rabs x) (Rplus (Rabs n) 1) & Rle 0 (Rmult n x)].
Proof. exact C47_any_arguments_lemma. Qed.
Print Assumptions C47_any_arguments.

(* C47: more samples, fewer outcomes or a larger probability of error do not make the bound larger *)
Theorem C47_monotone :
  forall (k k' N N' : Z) (p p' : R), Z.le 0 k -> Z.le k k' -> Z.le 1 N' -> Z.le N' N -> Rlt 0 p' -> Rle p' p -> Rle p 1 ->
  Rle (tv_error_bound k N p) (tv_error_bound k' N' p').
Proof. exact C47_monotone_lemma. Qed.
Print Assumptions C47_monotone.

(* C57: N independent draws from any distribution P on the outcomes S; the probability that the relative frequencies are at least as far from P as the bound is at most p *)
Theorem C57_error_bound :
  forall (T : eqType) (S : seq T) (P : T -> R_rcfType) (N : nat) (p : R_rcfType), uniq S -> (forall t, t \in S -> 0 <= P t) -> \sum_(t <- S) P t = 1 ->
  (0 < N)%N -> Rlt 0 p -> Rle p 1 ->
  iid_exp S P N (fun L => if tvd_lists [seq (count_mem t L)%:R / (size L)%:R | t <- S] [seq P t | t <- S] is Ok x
              then if (tv_error_bound (Z.of_nat (size S)) (Z.of_nat N) p : R_rcfType) <= x then 1 else 0 else 1) <= p.
Proof. exact C57_error_bound_lemma. Qed.
Print Assumptions C57_error_bound.

(* C57: with the minimal number of samples for the distance d the probability of a distance of at least d is at most p *)
Theorem C57_minimal_samples :
  forall (T : eqType) (S : seq T) (P : T -> R_rcfType) (p d : R_rcfType), uniq S -> (forall t, t \in S -> 0 <= P t) -> \sum_(t <- S) P t = 1 ->
  Rlt 0 p -> Rle p 1 -> Rlt 0 d ->
  iid_exp S P (Z.to_nat (minimal_samples (Z.of_nat (size S)) p d)) (fun L => if tvd_lists [seq (count_mem t L)%:R / (size L)%:R | t <- S] [seq P t | t <- S] is Ok x
              then if d <= x then 1 else 0 else 1) <= p.
Proof. exact C57_minimal_samples_lemma. Qed.
Print Assumptions C57_minimal_samples.

Example C57_example : (* a fair coin: the distribution of the theorem exists *)
  let P := fun b : bool => (2%:R^-1 : R_rcfType) in
  [/\ uniq [:: true; false], forall t, t \in [:: true; false] -> 0 <= P t & \sum_(t <- [:: true; false]) P t = 1].
Proof.
split=> //= [t _|]; first by rewrite invr_ge0 ler0n.
by rewrite big_cons big_seq1 -[_^-1]mul1r -splitr.
Qed.
