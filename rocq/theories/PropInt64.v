(* Property theorems: C79 (states given as arrays of 64 bit integers).  Only statements; proofs elsewhere. *)
From mathcomp Require Import all_ssreflect all_algebra ring zify.
From Verif Require Import Base SpecStates SpecPerm ModelPerm ModelInt64 ProofInt64 LemInt64.
Set Implicit Arguments.
Unset Strict Implicit.
Unset Printing Implicit Defensive.
Import Order.TTheory GRing.Theory Num.Theory.
Local Open Scope ring_scope.
Local Open Scope py_scope.

(* C79: with sums below 2^63 the Ryser calculator, and with at most 62 particles the Chin-Huh calculator, computes with arrays of int64 exactly what it computes with Python integers, for any object *)
Theorem C79_below_overflow :
  forall (F : numFieldType) (fuel : nat) (k : guan_kind) (c : calc F),
  (if k is Ryser then (Posz (sumn (c_input c)) < two63)%R else (sumn (c_input c) <= 62)%N) ->
  compute_permanent64 fuel k c = rmap Some (compute_permanent fuel k c).
Proof. exact C79_below_overflow_lemma. Qed.
Print Assumptions C79_below_overflow.

Example C79_example : (* the powers 2^62, 2^63 and 2^64 as int64 *)
  [/\ wrap64 (2%:R ^+ 62) = 2%:R ^+ 62, wrap64 (2%:R ^+ 63) = - (2%:R ^+ 63) & wrap64 (2%:R ^+ 64) = 0].
Proof. by split; [apply: wrap_pow_lt|exact: wrap_pow63|apply: wrap_pow_ge]. Qed.

(* C79: the same for the sub-matrix calculators; the Chin-Huh variant needs 1 to 63 particles *)
Theorem C79_sub_below_overflow :
  forall (F : numFieldType) (fuel : nat) (k : guan_kind) (c : subcalc F),
  (if k is Ryser then (Posz (sumn (sc_input c)) < two63)%R && (Posz (sumn (sc_output c)) < two63)%R
   else (0 < sumn (sc_input c) <= 63)%N) ->
  compute_permanents64 fuel k c = rmap (fun r => Some r.1) (compute_permanents fuel k c).
Proof. exact C79_sub_below_overflow_lemma. Qed.
Print Assumptions C79_sub_below_overflow.

(* C79: with 63 particles the Chin-Huh calculator returns minus the permanent; the sub-matrix variant with 64 particles minus the permanents *)
Theorem C79_wrong_sign_refuted :
  forall (F : numFieldType) (m : nat) (M : seq (seq F)) (s t : seq nat) (fuel : nat),
  is_square m M -> size t = size s -> (size s <= m)%N -> (\prod_(x <- s) x.+1 <= fuel)%N ->
  (forall c : calc F, c_matrix c = M -> c_input c = s -> c_output c = t -> sumn s = 63%N -> sumn t = 63%N ->
     exists c', compute_permanent64 fuel ChinHuh c = Ok (Some c') /\ c_perm c' = - bs_permanent M s t) /\
  (forall c : subcalc F, sc_matrix c = M -> sc_input c = s -> sc_output c = t -> sumn s = 64%N -> sumn t = 63%N ->
     compute_permanents64 fuel ChinHuh c = Ok (Some [seq - p | p <- sub_permanents M s t])).
Proof. exact C79_wrong_sign_refuted_lemma. Qed.
Print Assumptions C79_wrong_sign_refuted.

(* C79: with 64 or more particles, 65 or more for the sub-matrix variant, the divisor 2^n is 0 and the results are not finite *)
Theorem C79_not_finite_refuted :
  forall (F : numFieldType) (m : nat) (M : seq (seq F)) (s t : seq nat) (fuel : nat),
  is_square m M -> size t = size s -> (size s <= m)%N -> (\prod_(x <- s) x.+1 <= fuel)%N -> (Posz (sumn s) < two63)%R ->
  (forall c : calc F, c_matrix c = M -> c_input c = s -> c_output c = t -> (64 <= sumn s)%N -> sumn t = sumn s ->
     compute_permanent64 fuel ChinHuh c = Ok None) /\
  (forall c : subcalc F, sc_matrix c = M -> sc_input c = s -> sc_output c = t -> (65 <= sumn s)%N -> sumn s = (sumn t).+1 ->
     compute_permanents64 fuel ChinHuh c = Ok None).
Proof. exact C79_not_finite_refuted_lemma. Qed.
Print Assumptions C79_not_finite_refuted.

(* C79: without particles the Chin-Huh sub-matrix calculator raises ValueError for an array: it takes a negative power of an int64 *)
Theorem C79_no_particles_refuted :
  forall (F : numFieldType) (fuel : nat) (c : subcalc F), sumn (sc_input c) = 0%N ->
  compute_permanents64 fuel ChinHuh c = Err ValueError.
Proof. exact C79_no_particles_refuted_lemma. Qed.
Print Assumptions C79_no_particles_refuted.
