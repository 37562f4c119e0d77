(* Error bounds for the sub-matrix permanents calculators. *)
From mathcomp Require Import all_ssreflect all_algebra.
From Verif Require Import SpecFloat.
Set Implicit Arguments.
Unset Strict Implicit.
Unset Printing Implicit Defensive.
Import GRing.Theory Num.Theory.
Local Open Scope ring_scope.

(* l modes, n particles in the output, c Guan codes *)
Definition sub_roundings (l n c : nat) : nat := (3 * c + n * (3 * (l + c) + 2) + l + 6)%N.
Definition ryser_sub_scale (F : numFieldType) (n c : nat) (mu : F) : F := ((2 * c.+1)%:R * mu) ^+ n.
Definition chin_huh_sub_scale (F : numFieldType) (n c : nat) (mu : F) : F :=
  ((n + 2 * c + 2)%:R * mu) ^+ n.
