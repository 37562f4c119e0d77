(* Independent vocabulary for networks with losses. *)
From mathcomp Require Import all_ssreflect all_algebra complex.
From Verif Require Import Base SpecStates Combi SpecPerm SpecBS.
Set Implicit Arguments.
Unset Strict Implicit.
Unset Printing Implicit Defensive.
Import GRing.Theory Num.Theory.
Local Open Scope ring_scope.

Section Net.
Variable R : rcfType.
Notation C := R[i].

(* V diag(s) U = M with V, U unitary and s >= 0 in descending order *)
Definition is_svd (m : nat) (M V : seq (seq C)) (s : seq R) (U : seq (seq C)) : Prop :=
  [/\ unitary m V, unitary m U, size s = m, sorted (fun x y => y <= x) s /\ all (fun x => 0 <= x) s
    & forall i j : nat, (i < m)%N -> (j < m)%N ->
      ent M i j = \sum_(k < m) ent V i k * (s`_k)%:C%C * ent U k j].

(* a decomposition routine for square matrices *)
Definition svd_ok (svd : seq (seq C) -> res (seq (seq C) * seq R * seq (seq C))) : Prop :=
  forall (m : nat) (M : seq (seq C)), (0 < m)%N -> is_square m M ->
  exists V s U, svd M = Ok (V, s, U) /\ is_svd m M V s U.

(* M M^* M = M *)
Definition partial_isometry (m : nat) (M : seq (seq C)) : Prop :=
  forall i j : nat, (i < m)%N -> (j < m)%N ->
  \sum_(k < m) \sum_(l < m) ent M i k * conjc (ent M l k) * ent M l j = ent M i j.

(* the squared lengths of M v and v *)
Definition image_norm (m : nat) (M : seq (seq C)) (v : nat -> C) : R :=
  \sum_(i < m) nsq (\sum_(j < m) ent M i j * v j).
Definition vec_norm (m : nat) (v : nat -> C) : R := \sum_(j < m) nsq (v j).

(* no vector gets longer *)
Definition subunitary (m : nat) (M : seq (seq C)) : Prop :=
  is_square m M /\
  forall v : nat -> C, \sum_(i < m) nsq (\sum_(j < m) ent M i j * v j) <= \sum_(j < m) nsq (v j).

(* D adds d modes below M such that no vector changes its length *)
Definition dilation (m d : nat) (M D : seq (seq C)) : Prop :=
  (forall i j : nat, (i < m)%N -> (j < m)%N -> ent D i j = ent M i j) /\
  (forall i i' : nat, (i < m)%N -> (i' < m)%N -> ortho_cols (m + d) D i i').

(* the probability of t in the first m modes, for the input s, when the d
   further modes are not observed *)
Definition traced_prob (d : nat) (D : seq (seq C)) (s t : seq nat) : R :=
  \sum_(r <- comps d (sumn s - sumn t)) bs_prob D s (t ++ r).

(* cis x is exp(2 pi i x) *)
Definition cis_ok (cis : R -> C) : Prop :=
  [/\ forall x y, cis (x + y) = cis x * cis y, forall x, nsq (cis x) = 1
    & forall n k : nat, (0 < n)%N -> (cis (k%:R / n%:R) = 1 <-> (n %| k)%N)].

End Net.
