(* Independent vocabulary for the approximate samplers. *)
From mathcomp Require Import all_ssreflect all_algebra complex.
From Verif Require Import Base SpecStates Combi SpecPerm SpecBS SpecNet ModelPerm ModelBobs.
Set Implicit Arguments.
Unset Strict Implicit.
Unset Printing Implicit Defensive.
Import GRing.Theory Num.Theory.
Local Open Scope ring_scope.

Section Approx.
Variable R : rcfType.
Notation C := R[i].
Variable cis : R -> C.

(* the phases d on the first k modes *)
Definition phase_of (k : nat) (d : seq R) (i : nat) : C := if (i < k)%N then cis d`_i else 1.

(* the Fourier matrix on the first k modes *)
Definition fourier_of (k i j : nat) : C :=
  if (i < k)%N && (j < k)%N then cis ((i * j)%:R / k%:R) / (Num.sqrt k%:R)%:C%C else (i == j)%:R.

(* the Fourier matrix, then the phases d, then M *)
Definition approx_net (m : nat) (M : seq (seq C)) (k : nat) (d : seq R) : seq (seq C) :=
  [seq [seq \sum_(a < m) ent M i a * phase_of k d a * fourier_of k a j | j <- iota 0 m] | i <- iota 0 m].

(* p particles in one of the first k modes, and s in the other modes *)
Definition approx_inputs (k p : nat) (s : seq nat) : seq (seq nat) :=
  if k == 0%N then [:: s] else [seq set_nth 0%N (nseq k 0%N ++ drop k s) j p | j <- iota 0 k].

(* the mean over these inputs of the probability of t *)
Definition bobs_prob (d : nat) (D : seq (seq C)) (k p : nat) (s t : seq nat) : R :=
  (\sum_(s' <- approx_inputs k p s) traced_prob d D s' t) / (size (approx_inputs k p s))%:R.

(* the number of particles of these inputs *)
Definition approx_total (k p : nat) (s : seq nat) : nat :=
  (if k == 0 then sumn s else p + sumn (drop k s))%N.

(* an object for the network M; simulate keeps this *)
Definition bobs_of (svd : seq (seq C) -> res (seq (seq C) * seq R * seq (seq C))) (m : nat)
    (M : seq (seq C)) (x : bobs R) : Prop :=
  [/\ calc_matrix (bo_calc x) = M, extract_losses svd M = Ok (bo_losses x, bo_matrix x)
    & (bo_modes x <= m)%N].

(* the losses simulated in front of the network: none when they are tiny *)
Definition kept_losses (l : R) : R := if close_to_0 l then 0 else l.

End Approx.
