(* Accuracy of an arithmetic and the error bounds of the calculators. *)
From mathcomp Require Import all_ssreflect all_algebra.
From Verif Require Import SpecPerm ModelFloat.
Set Implicit Arguments.
Unset Strict Implicit.
Unset Printing Implicit Defensive.
Import GRing.Theory Num.Theory.
Local Open Scope ring_scope.

(* every operation has a relative error of at most u; a power with exponent e
   may be as inaccurate as e multiplications *)
Record accurate (F : numFieldType) (u : F) (A : arith F) : Prop := Accurate {
  acc_add : forall x y, `|f_add A x y - (x + y)| <= u * `|x + y|;
  acc_sub : forall x y, `|f_sub A x y - (x - y)| <= u * `|x - y|;
  acc_mul : forall x y, `|f_mul A x y - x * y| <= u * `|x * y|;
  acc_div : forall x z, z != 0 -> `|f_div A x z - x / z%:~R| <= u * `|x / z%:~R|;
  acc_pow : forall x e, `|f_pow A x e - x ^+ e| <= ((1 + u) ^+ e - 1) * `|x ^+ e|;
  acc_int : forall z, `|f_int A z - z%:~R| <= u * `|z%:~R|;
  acc_quot : forall y z, z != 0 ->
    `|f_quot A y z - y%:~R / z%:~R| <= u * `|y%:~R / z%:~R|;
  acc_fdiv : forall x y, y != 0 -> `|f_fdiv A x y - x / y| <= u * `|x / y|
}.

(* no entry of the m x m matrix exceeds mu *)
Definition entries_bounded (F : numFieldType) (m : nat) (M : seq (seq F)) (mu : F) : Prop :=
  forall j i, (j < m)%N -> (i < m)%N -> `|ent M j i| <= mu.

(* the computed value w of v: k roundings of values bounded by a *)
Definition error_bound (F : numFieldType) (u : F) (k : nat) (a v w : F) : Prop :=
  `|w - v| <= ((1 + u) ^+ k - 1) * a.

(* number of visited Guan codes *)
Definition code_number (s : seq nat) : nat := (\prod_(x <- s) x.+1)%N.

(* numbers of roundings: l modes, n particles, c codes *)
Definition guan_roundings (l n c : nat) : nat :=
  (2 * c + 2 + (n * (3 * (l + c) + 1) + l) + c)%N.
Definition glynn_roundings (n : nat) : nat :=
  (n * (3 * (n + 2 ^ n) + 1) + 1 + 2 ^ n)%N.
Definition classic_roundings (n : nat) : nat := (n * n.+1)%N.

(* common bounds for the four calculators *)
Definition any_roundings (l n : nat) : nat :=
  (n * (3 * (l + n + 2 ^ n) + 1) + 3 * 2 ^ n + l + 2)%N.
Definition any_scale (F : numFieldType) (n : nat) (mu : F) : F :=
  ((2 * (n + 2 ^ n))%:R * mu) ^+ n.

(* roundings of a probability: m modes, l particles left of the input s *)
Definition prob_roundings (m l : nat) (s : seq nat) : nat :=
  (2 * (any_roundings m l + 2) + 2 * m + 6 + code_number s)%N.
