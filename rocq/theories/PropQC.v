(* Property theorems: C46, C48 (distances between distributions, prime factors).  Only statements; proofs elsewhere. *)
From mathcomp Require Import all_ssreflect all_algebra ring zify.
From Verif Require Import Base SpecProb SpecQC ModelQC LemQC.
Set Implicit Arguments.
Unset Strict Implicit.
Unset Printing Implicit Defensive.
Import Order.TTheory GRing.Theory Num.Theory.
Local Open Scope ring_scope.
Local Open Scope py_scope.

(* C46: every two lists of the same length *)
Theorem C46_lists :
  forall (R : realFieldType) (d1 d2 : seq R), size d1 = size d2 ->
  exists t, [/\ tvd_lists d1 d2 = Ok t, t = (\sum_(i < size d1) `|d1`_i - d2`_i|) / 2%:R, 0 <= t,
    tvd_lists d2 d1 = Ok t & t = 0 <-> d1 = d2].
Proof. exact C46_lists_lemma. Qed.
Print Assumptions C46_lists.

(* C46: lists of different lengths are rejected *)
Theorem C46_lengths :
  forall (R : realFieldType) (d1 d2 : seq R), size d1 <> size d2 -> tvd_lists d1 d2 = Err AssertionError.
Proof. exact C46_lengths_lemma. Qed.
Print Assumptions C46_lengths.

(* C46: the triangle inequality *)
Theorem C46_triangle :
  forall (R : realFieldType) (d1 d2 d3 : seq R) a b c,
  tvd_lists d1 d2 = Ok a -> tvd_lists d2 d3 = Ok b -> tvd_lists d1 d3 = Ok c -> c <= a + b.
Proof. exact C46_triangle_lemma. Qed.
Print Assumptions C46_triangle.

(* C46: for probability distributions the distance is the largest difference between the probabilities of an event, and at most 1 *)
Theorem C46_events :
  forall (R : realFieldType) (d1 d2 : seq R) t, is_distr d1 -> is_distr d2 -> tvd_lists d1 d2 = Ok t ->
  [/\ t <= 1, forall A : pred nat, `|\sum_(i < size d1 | A i) d1`_i - \sum_(i < size d1 | A i) d2`_i| <= t
    & exists A : pred nat, \sum_(i < size d1 | A i) d1`_i - \sum_(i < size d1 | A i) d2`_i = t].
Proof. exact C46_events_lemma. Qed.
Print Assumptions C46_events.

Example C46_example : tvd_lists [:: 1; 0; 0] [:: 2%:R^-1; 2%:R^-1; 0] = Ok (2%:R^-1 : rat).
Proof. by vm_compute. Qed.

(* C46: the distance of two dictionaries is that of the lists of their values, 0 for a missing key, along any list of different keys with all keys of both; in any order of traversal of the set of keys *)
Theorem C46_dicts_agree :
  forall (R : realFieldType) (K : eqType) (order : seq K -> seq K) (d1 d2 : seq (K * R)) (ks : seq K),
  proper_dict d1 -> proper_dict d2 -> (forall s, perm_eq (order s) s) -> uniq ks -> {subset map fst d1 <= ks} -> {subset map fst d2 <= ks} ->
  tvd_lists [seq value d1 k | k <- ks] [seq value d2 k | k <- ks] = Ok (tvd_dicts order d1 d2).
Proof. exact C46_dicts_agree_lemma. Qed.
Print Assumptions C46_dicts_agree.

(* C46: dictionaries of probabilities *)
Theorem C46_dict_events :
  forall (R : realFieldType) (K : eqType) (order : seq K -> seq K) (d1 d2 : seq (K * R)),
  proper_dict d1 -> proper_dict d2 -> (forall s, perm_eq (order s) s) -> distr_dict d1 -> distr_dict d2 ->
  let t := tvd_dicts order d1 d2 in
  [/\ 0 <= t <= 1, t = tvd_dicts order d2 d1, t = 0 <-> (forall k, value d1 k = value d2 k),
     forall A : pred K, `|\sum_(kv <- d1 | A kv.1) kv.2 - \sum_(kv <- d2 | A kv.1) kv.2| <= t
   & exists A : pred K, \sum_(kv <- d1 | A kv.1) kv.2 - \sum_(kv <- d2 | A kv.1) kv.2 = t].
Proof. exact C46_dict_events_lemma. Qed.
Print Assumptions C46_dict_events.

Example C46_dict_example : tvd_dicts id [:: (0%N, 1)] [:: (1%N, 1)] = (1 : rat).
Proof. by vm_compute. Qed.

(* C46: the triangle inequality for dictionaries, traversed in any orders *)
Theorem C46_dict_triangle :
  forall (R : realFieldType) (K : eqType) (order order' order'' : seq K -> seq K) (d1 d2 d3 : seq (K * R)),
  proper_dict d1 -> proper_dict d2 -> proper_dict d3 ->
  (forall s, perm_eq (order s) s) -> (forall s, perm_eq (order' s) s) -> (forall s, perm_eq (order'' s) s) ->
  tvd_dicts order d1 d3 <= tvd_dicts order' d1 d2 + tvd_dicts order'' d2 d3.
Proof. exact C46_dict_triangle_lemma. Qed.
Print Assumptions C46_dict_triangle.

(* C48: every n >= 1.  All entries but the last are primes in non-decreasing order; the last is 1, or a prime not smaller than the others; it is 1 exactly when every odd prime factor of n has a square of at most the odd part of n *)
Theorem C48_factorisation :
  forall (n fuel : nat), (0 < n)%N -> (n <= fuel)%N ->
  exists fs x, [/\ get_prime_factors fuel (Posz n) = Ok (rcons fs x), (\prod_(f <- rcons fs x) f)%N = n, all prime fs,
      sorted leq fs
    & [/\ x = 1%N \/ prime x /\ sorted leq (rcons fs x)
        & x = 1%N <-> forall p, prime p -> odd p -> (p %| n)%N -> (p ^ 2 <= n %/ 2 ^ logn 2 n)%N]].
Proof. exact C48_factorisation_lemma. Qed.
Print Assumptions C48_factorisation.

Example C48_example : get_prime_factors 60 60 = Ok [:: 2; 2; 3; 5]%N.
Proof. by vm_compute. Qed.

(* C48: the factors of the powers of 2 end in 1, which is not a prime *)
Theorem C48_all_prime_refuted :
  forall (j fuel : nat), (2 ^ j <= fuel)%N -> get_prime_factors fuel (Posz (2 ^ j)) = Ok (rcons (nseq j 2) 1)%N.
Proof. exact C48_all_prime_refuted_lemma. Qed.
Print Assumptions C48_all_prime_refuted.

(* C48: the loop does not end for 0, and negative numbers raise *)
Theorem C48_outside :
  forall (fuel : nat) (n : int),
  (n = 0 -> get_prime_factors fuel n = Err OutOfFuel) /\
  (n < 0 -> (`|n| <= fuel)%N -> get_prime_factors fuel n = Err ValueError).
Proof. exact C48_outside_lemma. Qed.
Print Assumptions C48_outside.
