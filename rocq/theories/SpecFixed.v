(* Independent vocabulary for the strategies which replace the state by
   independent particles. *)
From mathcomp Require Import all_ssreflect all_algebra complex.
From Verif Require Import Base SpecStates Combi SpecPerm SpecBS ModelNet ModelFixed.
Set Implicit Arguments.
Unset Strict Implicit.
Unset Printing Implicit Defensive.
Import GRing.Theory Num.Theory.
Local Open Scope ring_scope.

Section Fixed.
Variable R : rcfType.
Notation C := R[i].

(* l independent particles, each in mode i with probability q_i and nowhere
   with the rest: the probability of t *)
Definition multinomial_prob (l : nat) (q : seq R) (t : seq nat) : R :=
  l`!%:R / ((l - sumn t)`! * \prod_(x <- t) x`!)%:R
  * (1 - \sum_(x <- q) x) ^+ (l - sumn t) * \prod_(i < size t) q`_i ^+ nth 0%N t i.

(* a particle spread over the first n of m modes with the phases d, behind the
   network M: the probabilities of the modes *)
Definition smeared (cis : R -> C) (m : nat) (M : seq (seq C)) (n : nat) (d : seq R) : seq R :=
  [seq nsq (\sum_(j < m | (j < n)%N) ent M i j * cis d`_j) / n%:R | i <- iota 0 m].

(* the same averaged over phases in S with the probabilities W *)
Definition fixed_law (cis : R -> C) (m : nat) (M : seq (seq C)) (n l : nat)
    (S : seq (seq R)) (W : seq R -> R) (t : seq nat) : R :=
  \sum_(d <- S) W d * multinomial_prob l (smeared cis m M n d) t.

(* phases of different modes are uncorrelated, like independent uniform ones *)
Definition uncorrelated (cis : R -> C) (m : nat) (S : seq (seq R)) (W : seq R -> R) : Prop :=
  forall j j' : nat, (j < m)%N -> (j' < m)%N ->
  \sum_(d <- S) (W d)%:C%C * (cis d`_j * conjc (cis d`_j')) = (j == j')%:R.

(* an object for the network M with l particles left *)
Definition fixed_of (svd : seq (seq C) -> res (seq (seq C) * seq R * seq (seq C))) (m : nat) (M : seq (seq C)) (l : nat)
    (x : fixed R) : Prop :=
  [/\ fx_left x = l, fx_modes x = m
    & fx_net x = LosslessNetwork M \/ exists2 E, lossy_network_init svd M = Ok E & fx_net x = LossyNetwork E].

End Fixed.

(* every particle is independently left with probability eta *)
Definition uniform_law (R : rcfType) (cis : R -> R[i]) (m : nat) (M : seq (seq R[i])) (n : nat) (eta : R)
    (S : seq (seq R)) (W : seq R -> R) (t : seq nat) : R :=
  \sum_(l < n.+1 | (sumn t <= l)%N) binomial_weight n eta l * fixed_law cis m M n l S W t.
