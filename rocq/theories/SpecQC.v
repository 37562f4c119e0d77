(* Independent vocabulary for the distances between distributions. *)
From mathcomp Require Import all_ssreflect all_algebra.
Set Implicit Arguments.
Unset Strict Implicit.
Unset Printing Implicit Defensive.
Import GRing.Theory Num.Theory.
Local Open Scope ring_scope.

Section Tv.
Variables (R : realFieldType) (K : eqType).

(* the value of k in a dictionary, 0 when it is missing *)
Definition value (d : seq (K * R)) (k : K) : R := nth 0 (map snd d) (index k (map fst d)).

(* a dictionary holds a key once *)
Definition proper_dict (d : seq (K * R)) : bool := uniq (map fst d).

(* a dictionary of non-negative numbers with sum 1 *)
Definition distr_dict (d : seq (K * R)) : Prop :=
  all (fun kv => 0 <= kv.2) d /\ \sum_(kv <- d) kv.2 = 1.

(* half the sum of the differences over the keys in S *)
Definition half_dist (S : seq K) (p q : K -> R) : R := (\sum_(k <- S) `|p k - q k|) / 2%:R.
End Tv.
