(* Independent specification of boson-sampling probabilities. *)
From mathcomp Require Import all_ssreflect all_fingroup all_algebra complex.
From Verif Require Import SpecStates Combi SpecPerm.
Set Implicit Arguments.
Unset Strict Implicit.
Unset Printing Implicit Defensive.
Import GRing.Theory Num.Theory.
Local Open Scope ring_scope.

(* the number of ways of keeping the particles T out of s, mode by mode *)
Definition ways (s T : seq nat) : nat := \prod_(i < size s) 'C(nth 0%N s i, nth 0%N T i).

Section BS.
Variable R : rcfType.
Notation C := R[i].

(* |z|^2 *)
Definition nsq (z : C) : R := complex.Re z ^+ 2 + complex.Im z ^+ 2.

(* the columns i and i' of U have inner product [i = i'] *)
Definition ortho_cols (m : nat) (U : seq (seq C)) (i i' : nat) : Prop :=
  \sum_(j < m) conjc (ent U j i) * ent U j i' = (i == i')%:R.

(* square with orthonormal columns *)
Definition unitary (m : nat) (U : seq (seq C)) : Prop :=
  is_square m U /\ forall i i' : nat, (i < m)%N -> (i' < m)%N -> ortho_cols m U i i'.

(* square, and the columns of the modes occupied in s are orthonormal *)
Definition unitary_on (m : nat) (U : seq (seq C)) (s : seq nat) : Prop :=
  is_square m U /\
  forall i i' : nat, (0 < nth 0%N s i)%N -> (0 < nth 0%N s i')%N -> ortho_cols m U i i'.

(* probability of the output t for the input s, without losses *)
Definition bs_prob (U : seq (seq C)) (s t : seq nat) : R :=
  nsq (bs_permanent U s t) / (factprod s * factprod t)%:R.

(* sumn t out of the particles of s, chosen uniformly, are left *)
Definition fixed_loss_prob (U : seq (seq C)) (s t : seq nat) : R :=
  (\sum_(T <- subs s | sumn T == sumn t) (ways s T)%:R * bs_prob U T t)
  / 'C(sumn s, sumn t)%:R.

(* probability that l out of n particles are left *)
Definition binomial_weight (n : nat) (eta : R) (l : nat) : R :=
  'C(n, l)%:R * eta ^+ l * (1 - eta) ^+ (n - l).

(* every particle is independently left with probability eta *)
Definition uniform_loss_prob (U : seq (seq C)) (s : seq nat) (eta : R) (t : seq nat) : R :=
  binomial_weight (sumn s) eta (sumn t) * fixed_loss_prob U s t.

End BS.
