(* Error bounds for version A with uniform losses. *)
From mathcomp Require Import all_ssreflect all_algebra.
From Verif Require Import SpecFloat SpecFloatGcc.
Set Implicit Arguments.
Unset Strict Implicit.
Unset Printing Implicit Defensive.
Import GRing.Theory Num.Theory.
Local Open Scope ring_scope.

Section Bounds.
Variable F : numFieldType.

(* one sample: additionally one comparison per particle *)
Definition ugcc_error (u eps : F) (N m : nat) (s : seq nat) : F :=
  gcc_error u eps N m s + (sumn s)%:R / N%:R.

(* recorded probability of an outcome of l particles *)
Definition recorded_error (u eps : F) (m : nat) (s : seq nat) (l : nat) : F :=
  (1 + u) ^+ (m + 2) * (1 + l`!%:R * entry_error u eps m s l) - 1.
(* binomial weights *)
Definition bin_weight_error (u : F) (n : nat) : F := (1 + u) ^+ (2 * n + 3) - 1.
(* product of both *)
Definition weighted_error (u eps : F) (m : nat) (s : seq nat) (l : nat) : F :=
  (1 + u) * ((1 + recorded_error u eps m s l) * (1 + bin_weight_error u (sumn s))) - 1.

End Bounds.
