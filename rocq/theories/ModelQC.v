(* Model of quantum_computations_utilities.py: the distances between
   distributions (25-79) and get_prime_factors (130-144).  The bounds on the
   number of samples (95-127, 147-156) are in ModelBound.v.  Floating-point
   numbers are elements of a real field; the divisions of get_prime_factors are
   only done on multiples of the divisor, and are exact. *)
From mathcomp Require Import all_ssreflect all_algebra.
From Verif Require Import Base.
Set Implicit Arguments.
Unset Strict Implicit.
Unset Printing Implicit Defensive.
Import GRing.Theory Num.Theory.
Local Open Scope ring_scope.
Local Open Scope py_scope.

Section Tvd.
Variable R : realFieldType.

(* count_total_variation_distance (57-79) *)
Definition tvd_lists (d1 d2 : seq R) : res R :=
  if size d1 != size d2 then Err AssertionError else
  let! total := rfoldl (fun acc i =>
      let! a := py_get d1 (Posz i) in
      let! b := py_get d2 (Posz i) in
      Ok (acc + `|a - b|)) 0 (iota 0 (size d1)) in
  Ok (total / 2%:R).

(* dictionaries: (key, value) pairs in the order of insertion, one for a key *)
Variable K : eqType.
Definition pydict := seq (K * R).
Definition keys (d : pydict) : seq K := map fst d.
Fixpoint put (d : pydict) (k : K) (v : R) : pydict :=
  if d is (k', w) :: d' then if k' == k then (k, v) :: d' else (k', w) :: put d' k v
  else [:: (k, v)].
(* update: the entries of e one after the other *)
Definition update (d e : pydict) : pydict := foldl (fun d kv => put d kv.1 kv.2) d e.
(* indexing a defaultdict(lambda: 0) also inserts a missing key *)
Definition default_get (d : pydict) (k : K) : R * pydict :=
  if [seq kv <- d | kv.1 == k] is kv :: _ then (kv.2, d) else (0, put d k 0).

(* count_total_variation_distance_dicts (25-54).  The order in which a set is
   traversed is not specified: it is some function [order] of the keys added. *)
Definition tvd_dicts (order : seq K -> seq K) (d1 d2 : pydict) : R :=
  let ks := order (undup (keys d1 ++ keys d2)) in
  let dd1 := update [::] d1 in
  let dd2 := update [::] d2 in
  let: (_, _, terms) := foldl (fun acc k =>
      let: (dd1, dd2, terms) := acc in
      let: (a, dd1') := default_get dd1 k in
      let: (b, dd2') := default_get dd2 k in
      (dd1', dd2', rcons terms `|a - b|)) (dd1, dd2, [::]) ks in
  2%:R^-1 * foldl +%R 0 terms.
End Tvd.

(* int(sqrt(n)) *)
Fixpoint isqrt_below (n k : nat) : nat :=
  if k is k'.+1 then if (k ^ 2 <= n)%N then k else isqrt_below n k' else 0%N.
Definition isqrt (n : nat) : nat := isqrt_below n n.

(* while number % i == 0: append i; number = number / i *)
Fixpoint divide_out (fuel i n : nat) (fs : seq nat) : res (nat * seq nat) :=
  if fuel is fuel'.+1 then
    if (n %% i == 0)%N then divide_out fuel' i (n %/ i)%N (rcons fs i) else Ok (n, fs)
  else Err OutOfFuel.

(* range(3, bound, 2) *)
Definition odds_from_3 (bound : nat) : seq nat := [seq (3 + 2 * j)%N | j <- iota 0 ((bound - 2) %/ 2)].

(* get_prime_factors (130-144), for number >= 0 *)
Definition prime_factors_nat (fuel n : nat) : res (seq nat) :=
  let! nf := divide_out fuel 2 n [::] in
  let! nf' := rfoldl (fun nf i => divide_out fuel i nf.1 nf.2) nf (odds_from_3 (isqrt nf.1).+1) in
  Ok (rcons nf'.2 nf'.1).
(* below 0 the odd part is negative, its square root is nan, and int raises *)
Definition get_prime_factors (fuel : nat) (n : int) : res (seq nat) :=
  match n with
  | Posz k => prime_factors_nat fuel k
  | Negz k => let! _ := divide_out fuel 2 k.+1 [::] in Err ValueError
  end.
