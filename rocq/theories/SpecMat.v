(* Independent vocabulary for the distance of matrices. *)
From mathcomp Require Import all_ssreflect all_algebra complex.
From Verif Require Import SpecStates Combi SpecPerm SpecBS.
Set Implicit Arguments.
Unset Strict Implicit.
Unset Printing Implicit Defensive.
Import GRing.Theory Num.Theory.
Local Open Scope ring_scope.

(* r rows of c entries *)
Definition is_matrix (T : Type) (r c : nat) (A : seq (seq T)) : bool :=
  (size A == r) && all (fun row => size row == c) A.

Section Mat.
Variable R : rcfType.
Notation C := R[i].

(* the length of the matrix A - B as a vector *)
Definition frobenius (r c : nat) (A B : seq (seq C)) : R :=
  Num.sqrt (\sum_(i < r) \sum_(j < c) nsq (ent A i j - ent B i j)).

(* the length of the vector with entries v 0, ..., v (n - 1) *)
Definition vec_length (n : nat) (v : nat -> C) : R := Num.sqrt (\sum_(j < n) nsq (v j)).
End Mat.
