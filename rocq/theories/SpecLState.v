(* Independent vocabulary for the lossy-state sampler. *)
From mathcomp Require Import all_ssreflect all_algebra complex.
From Verif Require Import Base SpecStates Combi SpecPerm SpecBS SpecNet SpecBobs ModelPerm ModelLState.
Set Implicit Arguments.
Unset Strict Implicit.
Unset Printing Implicit Defensive.
Import GRing.Theory Num.Theory.
Local Open Scope ring_scope.

(* hash tells the states with at most the particles of p apart *)
Definition no_collision (H : eqType) (hash : seq nat -> H) (p : seq nat) : Prop :=
  forall t t', substate t p -> substate t' p -> hash t = hash t' -> t = t'.

Section LossyState.
Variable R : rcfType.
Notation C := R[i].

(* the weight of a set of sumn K particles left by p *)
Definition left_weight (eta : R) (p K : seq nat) : R := eta ^+ sumn K * (1 - eta) ^+ (sumn p - sumn K).

(* l particles in mode h, and none in the modes after it; m modes in all *)
Definition moved (m h : nat) (K : seq nat) (l : nat) : seq nat := K ++ l :: nseq (m - h).-1 0%N.

(* the columns of U in the order sigma *)
Definition permuted (m : nat) (U : seq (seq C)) (sigma : seq nat) : seq (seq C) :=
  [seq [seq ent U i (nth 0%N sigma j) | j <- iota 0 m] | i <- iota 0 m].

(* the probability of t with the network A *)
Definition lstate_prob (eta : R) (m h : nat) (A : seq (seq C)) (s t : seq nat) : R :=
  \sum_(K <- subs (take h s)) \sum_(l < (sumn (drop h s)).+1 | (sumn K + l == sumn t)%N)
    left_weight eta (take h s) K * binomial_weight (sumn (drop h s)) eta l * bs_prob A (moved m h K l) t.

(* an object for the network U; simulate keeps this *)
Definition lstate_of (cis : R -> C) (m : nat) (U : seq (seq C)) (h : nat) (eta : R) (x : lstate R) : Prop :=
  [/\ calc_matrix (ls_calc x) = U, ls_level x = Posz h, ls_eta x = eta, (0 < ls_threads x)%N
    & ModelNet.qft_matrix_first cis (m - h) m = Ok (ls_qft x)].

End LossyState.

(* the Fourier matrix and the phases d on the modes h, h+1, ..., then U *)
Definition intended_net (R : rcfType) (cis : R -> R[i]) (m h : nat) (U : seq (seq R[i])) (d : seq R) : seq (seq R[i]) :=
  [seq [seq \sum_(a < m) ent U i a * (if (a < h)%N then 1 else cis d`_(a - h))
            * (if (h <= a)%N && (h <= j)%N then cis (((a - h) * (j - h))%:R / (m - h)%:R) / (Num.sqrt (m - h)%:R)%:C%C
               else (val a == j)%:R)
       | j <- iota 0 m] | i <- iota 0 m].

(* the probability of t when the phases take the values in S with the
   probabilities W, and the permutation of the columns is uniform *)
Definition lstate_law (R : rcfType) (cis : R -> R[i]) (m h : nat) (U : seq (seq R[i])) (eta : R) (s : seq nat)
    (S : seq (seq R)) (W : seq R -> R) (t : seq nat) : R :=
  \sum_(d <- S) W d *
    ((\sum_(sigma <- permutations (iota 0 m)) lstate_prob eta m h (approx_net cis m (permuted m U sigma) (m - h) d) s t)
     / m`!%:R).
