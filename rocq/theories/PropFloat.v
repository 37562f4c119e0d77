(* Property theorems: C73 (rounding errors of the permanent calculators).  Only statements; proofs elsewhere. *)
From mathcomp Require Import all_ssreflect all_algebra ring zify.
From Verif Require Import Base SpecStates Combi SpecPerm ModelPerm ProofDist1 ModelFloat SpecFloat ProofFloat4 LemFloat.
Set Implicit Arguments.
Unset Strict Implicit.
Unset Printing Implicit Defensive.
Import Order.TTheory GRing.Theory Num.Theory.
Local Open Scope ring_scope.
Local Open Scope py_scope.

(* C73: with exact operations the calculators over an arithmetic are the calculators of the model *)
Theorem C73_exact_arithmetic :
  forall (F : numFieldType) (gray : nat -> seq nat) (fuel : nat) (a : any_calc F),
  fl_compute_any (exact_arith F) gray fuel a = compute_any gray fuel a /\
  forall u : F, 0 <= u -> accurate u (exact_arith F).
Proof. exact C73_exact_arithmetic_lemma. Qed.
Print Assumptions C73_exact_arithmetic.

(* C73: the Ryser calculator with rounded operations terminates without an exception; its error is at most ((1+u)^K - 1) (2 N mu)^n for N Guan codes, n particles and K roundings on every path *)
Theorem C73_ryser :
  forall (F : numFieldType) (u : F) (A : arith F) (m : nat) (M : seq (seq F)) (s t : seq nat) (mu : F) (fuel : nat) (c : calc F), 0 <= u -> accurate u A -> is_square m M -> size t = size s -> (size s <= m)%N -> s != [::] ->
  sumn s = sumn t -> entries_bounded m M mu ->
  (code_number s <= fuel)%N -> c_matrix c = M -> c_input c = s -> c_output c = t ->
  exists c', fl_compute_permanent A fuel Ryser c = Ok c' /\
    error_bound u (guan_roundings (size s) (sumn s) (code_number s))
      (((2 * code_number s)%:R * mu) ^+ sumn s) (bs_permanent M s t) (c_perm c').
Proof. exact C73_ryser_lemma. Qed.
Print Assumptions C73_ryser.

(* C73: the Chin-Huh calculator *)
Theorem C73_chin_huh :
  forall (F : numFieldType) (u : F) (A : arith F) (m : nat) (M : seq (seq F)) (s t : seq nat) (mu : F) (fuel : nat) (c : calc F), 0 <= u -> accurate u A -> is_square m M -> size t = size s -> (size s <= m)%N -> s != [::] ->
  sumn s = sumn t -> entries_bounded m M mu ->
  (code_number s <= fuel)%N -> c_matrix c = M -> c_input c = s -> c_output c = t ->
  exists c', fl_compute_permanent A fuel ChinHuh c = Ok c' /\
    error_bound u (guan_roundings (size s) (sumn s) (code_number s))
      (((sumn s + 2 * code_number s)%:R * mu) ^+ sumn s) (bs_permanent M s t) (c_perm c').
Proof. exact C73_chin_huh_lemma. Qed.
Print Assumptions C73_chin_huh.

(* C73: the recursive calculator *)
Theorem C73_classic :
  forall (F : numFieldType) (u : F) (A : arith F) (m : nat) (M : seq (seq F)) (s t : seq nat) (mu : F) (fuel : nat),
  0 <= u -> accurate u A -> is_square m M -> (size s <= m)%N -> (size t <= m)%N -> sumn s = sumn t ->
  entries_bounded m M mu -> (sumn s <= fuel)%N ->
  exists v, fl_classic_permanent A fuel M s t = Ok v /\
    error_bound u (classic_roundings (sumn s)) ((sumn s)`!%:R * mu ^+ sumn s) (bs_permanent M s t) v.
Proof. exact C73_classic_lemma. Qed.
Print Assumptions C73_classic.

Example C73_example : (* the bound is attained *)
  let u := 10%:Q^-1 in
  fl_classic_permanent (scaled_arith u) 1 [:: [:: 1]] [:: 1]%N [:: 1]%N = Ok ((1 + u) ^+ 2) /\
  accurate u (scaled_arith u) /\ classic_roundings 1 = 2%N.
Proof. by split; [vm_compute|split=> //; apply: scaled_accurate]. Qed.

(* C73: the Glynn calculator, for any list of update indices which is a Gray code *)
Theorem C73_glynn :
  forall (F : numFieldType) (u : F) (A : arith F) (m : nat) (M : seq (seq F)) (s t : seq nat) (mu : F) (gray : nat -> seq nat),
  0 <= u -> accurate u A -> is_square m M -> (size s <= m)%N -> (size t <= m)%N -> sumn s = sumn t ->
  entries_bounded m M mu -> gray_ok gray (sumn s) ->
  exists v, fl_glynn_permanent A gray M s t = Ok v /\
    error_bound u (glynn_roundings (sumn s)) (((sumn s + 2 * 2 ^ sumn s)%:R * mu) ^+ sumn s)
      (bs_permanent M s t) v.
Proof. exact C73_glynn_lemma. Qed.
Print Assumptions C73_glynn.

(* C73: a calculator object of any type and with any history: common bounds *)
Theorem C73_any_calculator :
  forall (F : numFieldType) (u : F) (A : arith F) (m : nat) (M : seq (seq F)) (s t : seq nat) (mu : F) (gray : nat -> seq nat) (fuel : nat) (a : any_calc F), 0 <= u -> accurate u A -> is_square m M -> size t = size s -> (size s <= m)%N -> s != [::] ->
  sumn s = sumn t -> entries_bounded m M mu ->
  gray_ok gray (sumn s) -> (code_number s <= fuel)%N ->
  calc_matrix a = M -> calc_input a = s -> calc_output a = t ->
  exists v a', fl_compute_any A gray fuel a = Ok (v, a') /\
    error_bound u (any_roundings (size s) (sumn s)) (any_scale (sumn s) mu) (bs_permanent M s t) v.
Proof. exact C73_any_calculator_lemma. Qed.
Print Assumptions C73_any_calculator.

(* C73: the bounds are of first order in u: at most 2 k u a for k u <= 1/2 *)
Theorem C73_first_order :
  forall (F : numFieldType) (u a v w : F) (k : nat),
  0 <= u -> 0 <= a -> k%:R * u <= 2%:R^-1 -> error_bound u k a v w -> `|w - v| <= 2%:R * k%:R * u * a.
Proof. exact C73_first_order_lemma. Qed.
Print Assumptions C73_first_order.

(* C73: the values of two calculators, of any types and with any histories, differ by at most the sum of the bounds *)
Theorem C73_agreement :
  forall (F : numFieldType) (u : F) (A : arith F) (m : nat) (M : seq (seq F)) (s t : seq nat) (mu : F) (gray : nat -> seq nat) (fuel : nat) (a b : any_calc F), 0 <= u -> accurate u A -> is_square m M -> size t = size s -> (size s <= m)%N -> s != [::] ->
  sumn s = sumn t -> entries_bounded m M mu ->
  gray_ok gray (sumn s) -> (code_number s <= fuel)%N ->
  calc_matrix a = M -> calc_input a = s -> calc_output a = t ->
  calc_matrix b = M -> calc_input b = s -> calc_output b = t ->
  exists v a' w b', [/\ fl_compute_any A gray fuel a = Ok (v, a'), fl_compute_any A gray fuel b = Ok (w, b')
    & `|v - w| <= ((1 + u) ^+ any_roundings (size s) (sumn s) - 1) * (2%:R * any_scale (sumn s) mu)].
Proof. exact C73_agreement_lemma. Qed.
Print Assumptions C73_agreement.
