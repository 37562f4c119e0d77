(* Roundings of real numbers and the accuracy of the operations built from them. *)
From mathcomp Require Import all_ssreflect all_algebra complex.
From Verif Require Import ModelRound.
Set Implicit Arguments.
Unset Strict Implicit.
Unset Printing Implicit Defensive.
Import GRing.Theory Num.Theory.
Local Open Scope ring_scope.

(* orders of evaluation using every operand once *)
Definition order_ok (O : nat -> tree) : Prop := forall n, (0 < n)%N -> perm_eq (leaves (O n)) (iota 0 n).

(* a relative error of at most d *)
Definition rounding (R : rcfType) (d : R) (rnd : R -> R) : Prop := forall x, `|rnd x - x| <= d * `|x|.

(* y is a number of p binary digits, the closest one to x, up to ties, in the
   binade of x *)
Definition binary_rounding (R : rcfType) (p : nat) (x y : R) : Prop :=
  (x = 0 /\ y = 0) \/
  exists (s : bool) (k : nat) (e : int),
    [/\ y = (-1) ^+ s * k%:R * 2%:R ^ e, (2 ^ p <= 2 * k <= 2 * 2 ^ p)%N,
        (2 ^ p)%:R * 2%:R ^ e <= 2%:R * `|x| <= 2%:R * (2 ^ p)%:R * 2%:R ^ e
      & `|y - x| <= 2%:R^-1 * 2%:R ^ e].

(* accuracy of the complex operations *)
Definition op_accuracy (R : rcfType) (d : R) : R := 2%:R * ((1 + d) ^+ 12 - 1).
