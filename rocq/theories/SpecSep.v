(* Independent vocabulary for the approximated lossy distribution calculator. *)
From mathcomp Require Import all_ssreflect all_algebra complex.
From Verif Require Import SpecStates Combi SpecPerm SpecBS SpecNet.
Set Implicit Arguments.
Unset Strict Implicit.
Unset Printing Implicit Defensive.
Import GRing.Theory Num.Theory.
Local Open Scope ring_scope.

(* the particles of the first a - 1 modes put into mode a - 1, whose own
   particles are dropped *)
Definition bunched (a : nat) (s : seq nat) : seq nat :=
  nseq a.-1 0%N ++ sumn (take a.-1 s) :: drop a s.

Section Sep.
Variable R : rcfType.
Notation C := (ComplexField.complex_numFieldType R).

(* the m x m matrix M with its first a columns divided by sqrt tau *)
Definition scaled_columns (m a : nat) (tau : R) (M : seq (seq C)) : seq (seq C) :=
  [seq [seq if (j < a)%N then ent M i j * (1 / Num.sqrt tau)%:C%C else ent M i j | j <- iota 0 m] | i <- iota 0 m].

(* the m x m matrix N followed by phases and the Fourier transform on the first a modes *)
Definition rotated_rows (cis : R -> C) (m a : nat) (phi : nat -> R) (N : seq (seq C)) : seq (seq C) :=
  [seq [seq if (i < a)%N then \sum_(k < a) cis ((i * k)%:R / a%:R) / (Num.sqrt a%:R)%:C%C * cis (phi k) * ent N k j
            else ent N i j | j <- iota 0 m] | i <- iota 0 m].
End Sep.
