(* Accuracy of sums of products and of the decomposition; error bounds for the
   expanded matrix. *)
From mathcomp Require Import all_ssreflect all_algebra complex.
From Verif Require Import Base SpecStates Combi SpecPerm SpecBS SpecNet.
Set Implicit Arguments.
Unset Strict Implicit.
Unset Printing Implicit Defensive.
Import GRing.Theory Num.Theory.
Local Open Scope ring_scope.

(* a sum of n products in any order: each of them is rounded at most n + 1 times *)
Definition accurate_dot (F : numFieldType) (u : F) (f_dot : seq F -> seq F -> F) : Prop :=
  forall x y : seq F, size x = size y ->
  `|f_dot x y - \sum_(k < size x) x`_k * y`_k| <= ((1 + u) ^+ (size x).+1 - 1) * \sum_(k < size x) `|x`_k * y`_k|.

(* the exact one *)
Definition exact_dot (F : numFieldType) (x y : seq F) : F := \sum_(k < size y) x`_k * y`_k.

(* a rounded square root *)
Definition accurate_sqrt (R : rcfType) (u : R) (f_sqrt : R -> R) : Prop :=
  forall x, 0 <= x -> `|f_sqrt x - Num.sqrt x| <= u * Num.sqrt x.

Section Net.
Variable R : rcfType.
Notation C := (ComplexField.complex_numFieldType R).

(* equal up to d in each of the m x m entries *)
Definition close (m : nat) (d : R) (P Q : seq (seq C)) : Prop :=
  forall i j : nat, (i < m)%N -> (j < m)%N -> `|ent P i j - ent Q i j| <= (d%:C)%C.

(* what the decomposition returned is up to d the exact decomposition of M0 *)
Definition near_svd (m : nat) (d : R) (M0 V : seq (seq C)) (s : seq R) (U : seq (seq C)) : Prop :=
  [/\ is_square m V, is_square m U, size s = m &
    exists V0 s0 U0, [/\ is_svd m M0 V0 s0 U0, close m d V V0, close m d U U0 &
      forall i : nat, (i < m)%N -> `|s`_i - s0`_i| <= d]].

(* squares of singular values; 1 - squares; their square roots *)
Definition square_sv_error (u d : R) : R := (1 + u) ^+ 2 * (1 + d) ^+ 2 - 1.
Definition loss_sv_error (u d : R) : R := (1 + u) ^+ 3 * (1 + d) ^+ 2 - 1.
Definition loss_root_error (u d : R) : R := (1 + u) * (1 + Num.sqrt (loss_sv_error u d)) - 1.

(* product of two n x n matrices with entries up to 1 and errors p and q *)
Definition product_error (u : R) (n : nat) (p q : R) : R :=
  n%:R * ((1 + u) ^+ n.+1 * ((1 + p) * (1 + q)) - 1).
Definition expand_error (u d : R) (m : nat) : R :=
  product_error u (m + m) (product_error u (m + m) d (loss_root_error u d)) d.

End Net.

(* distance of the distributions of two networks whose entries differ by at
   most eps: n particles in the state s of m modes *)
Definition network_error (F : numFieldType) (eps : F) (m : nat) (s : seq nat) : F :=
  ((1 + eps) ^+ (2 * sumn s) - 1) * ((sumn s)`!%:R / (factprod s)%:R * (m + m.+1)%:R ^+ sumn s) / 2%:R.
