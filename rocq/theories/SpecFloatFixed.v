(* Error bounds for the strategies with independent particles. *)
From mathcomp Require Import all_ssreflect all_algebra complex.
From Verif Require Import Base SpecPerm SpecBS SpecFloat SpecFloatGccB SpecFloatNet ModelFixed ModelFloatFixed.
Set Implicit Arguments.
Unset Strict Implicit.
Unset Printing Implicit Defensive.
Import GRing.Theory Num.Theory.
Local Open Scope ring_scope.

Section Fixed.
Variable R : rcfType.
Notation C := (ComplexField.complex_numFieldType R).

(* the computed phase factors *)
Definition accurate_cis (c : R) (cis f_cis : R -> C) : Prop := forall x, `|f_cis x - cis x| <= (c%:C)%C.

(* the network applies the m x m matrix M0 up to nu *)
Definition accurate_network (f_dot : seq C -> seq C -> C) (m : nat) (M0 : seq (seq C)) (nu : R)
    (net : network R) : Prop :=
  forall v : seq C, size v = m ->
  exists w, [/\ fl_network_simulate f_dot net v = Ok w, size w = m & forall i : nat, (i < m)%N ->
    `|w`_i - \sum_(j < m) ent M0 i j * v`_j| <= (nu%:C)%C * \sum_(j < m) `|v`_j|].

(* a network without losses whose matrix is given up to eps; one with losses *)
Definition lossless_error (u eps : R) (m : nat) : R := (1 + u) ^+ m.+1 * (1 + eps) - 1.
Definition lossy_error (u d : R) (m : nat) : R := (1 + u) ^+ (m + m).+1 * (1 + expand_error u d m) - 1.

(* amplitudes behind the network; their squares *)
Definition amplitude_error (u c nu : R) (m : nat) : R :=
  m%:R * ((1 + nu) * ((1 + u) ^+ 6 * (1 + c)) - 1).
Definition intensity_error (u c nu : R) (m : nat) : R :=
  (1 + u) ^+ 2 * (1 + amplitude_error u c nu m) ^+ 2 - 1.

(* one particle among m modes with probabilities known up to e *)
Definition place_error (u e : R) (N m : nat) : R :=
  (m + m.+1)%:R * ((1 + u) ^+ m * (1 + m%:R * e) - 1 + N%:R^-1).

(* l particles *)
Definition fixed_error (u c nu : R) (N m l : nat) : R :=
  l%:R * place_error u (intensity_error u c nu m) N m.

(* a random number of them, out of n *)
Definition uniform_error (u c nu : R) (N m n : nat) : R :=
  (n.+1 + n.+2)%:R * choice_error u N n.+1 + fixed_error u c nu N m n.

End Fixed.
