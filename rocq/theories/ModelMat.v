(* Model of count_distance_between_matrices, quantum_computations_utilities.py
   (82-92).  Matrices are lists of rows of the same length, complex numbers R[i]. *)
From mathcomp Require Import all_ssreflect all_algebra complex.
From Verif Require Import Base ModelStates ModelPerm ModelDist SpecProb ModelGcc ModelGccB ModelNet.
Set Implicit Arguments.
Unset Strict Implicit.
Unset Printing Implicit Defensive.
Import GRing.Theory Num.Theory.
Local Open Scope ring_scope.
Local Open Scope py_scope.

Section Mat.
Variable R : rcfType.
Notation CF := (ComplexField.complex_numFieldType R).
Notation mat := (seq (seq CF)).

(* numpy's broadcasting of two lengths: a length 1 is stretched *)
Definition bc_dim (a b : nat) : res nat :=
  if a == b then Ok a else if a == 1%N then Ok b else if b == 1%N then Ok a else Err ValueError.
Definition bc_get (A : mat) (i j : nat) : CF :=
  np_get A (if size A == 1%N then 0%N else i) (if np_cols A == 1%N then 0%N else j).

(* A - B *)
Definition np_sub (A B : mat) : res mat :=
  let! c := bc_dim (np_cols A) (np_cols B) in
  let! r := bc_dim (size A) (size B) in
  Ok [seq [seq bc_get A i j - bc_get B i j | j <- iota 0 c] | i <- iota 0 r].

(* numpy.linalg.norm of a matrix *)
Definition np_norm (A : mat) : R := Num.sqrt (foldl +%R 0 [seq py_abs x ^+ 2 | x <- flatten A]).

(* 92 *)
Definition matrix_distance (A B : mat) : res R :=
  let! D := np_sub A B in Ok (np_norm D).
End Mat.
