(* The law of the sampler for non-uniform losses with random phases. *)
From mathcomp Require Import all_ssreflect all_algebra complex.
From Verif Require Import Base SpecStates Combi SpecPerm SpecBS SpecNet SpecLim.
Set Implicit Arguments.
Unset Strict Implicit.
Unset Printing Implicit Defensive.
Import GRing.Theory Num.Theory.
Local Open Scope ring_scope.

(* p particles occupy the first k modes, each of them in a uniformly chosen
   one, the others are as in r; they go through the network D, whose d last
   modes are not observed *)
Definition spread_rest (R : rcfType) (d : nat) (D : seq (seq R[i])) (k p : nat) (r t : seq nat) : R :=
  \sum_(a <- comps k p) spread_weight R k p a * traced_prob d D (a ++ r) t.
