(* Property theorems: C76 (rounding errors of the sub-matrix permanents calculators).  Only statements; proofs elsewhere. *)
From mathcomp Require Import all_ssreflect all_algebra ring zify.
From Verif Require Import Base SpecStates Combi SpecPerm ModelPerm ModelFloat ModelFloatSub SpecFloat SpecFloatSub ProofFloat4 LemFloatSub.
Set Implicit Arguments.
Unset Strict Implicit.
Unset Printing Implicit Defensive.
Import Order.TTheory GRing.Theory Num.Theory.
Local Open Scope ring_scope.
Local Open Scope py_scope.

(* C76: with exact operations the sub-matrix calculators over an arithmetic are the calculators of the model *)
Theorem C76_exact_arithmetic :
  forall (F : numFieldType) (fuel : nat) (k : guan_kind) (c : subcalc F),
  fl_compute_permanents (exact_arith F) fuel k c = compute_permanents fuel k c.
Proof. exact C76_exact_arithmetic_lemma. Qed.
Print Assumptions C76_exact_arithmetic.

(* C76: the Ryser variant with rounded operations terminates without an exception; the error of every permanent is at most ((1+u)^K - 1) (2 (N+1) mu)^n for N Guan codes, n output particles and K roundings on every path *)
Theorem C76_ryser :
  forall (F : numFieldType) (u : F) (A : arith F) (m : nat) (M : seq (seq F)) (s t : seq nat) (mu : F) (fuel : nat) (c : subcalc F), 0 <= u -> u <= 2%:R^-1 -> accurate u A -> is_square m M -> size t = size s -> (size s <= m)%N ->
  sumn s = (sumn t).+1 -> entries_bounded m M mu -> (code_number s <= fuel)%N ->
  sc_matrix c = M -> sc_input c = s -> sc_output c = t ->
  exists ps c', [/\ fl_compute_permanents A fuel Ryser c = Ok (ps, c'),
    [/\ sc_matrix c' = M, sc_input c' = s & sc_output c' = t], size ps = size s &
    forall i, (i < size s)%N -> error_bound u (sub_roundings (size s) (sumn t) (code_number s))
      (ryser_sub_scale (sumn t) (code_number s) mu) (sub_permanents M s t)`_i ps`_i].
Proof. exact C76_ryser_lemma. Qed.
Print Assumptions C76_ryser.

Example C76_example : (* one output particle: the permanents without the first and without the second input particle *)
  let c := new_subcalc [:: [:: 1; 2%:Q]; [:: 3%:Q; 4%:Q]] [:: 1; 1]%N [:: 1; 0]%N in
  rmap fst (fl_compute_permanents (exact_arith rat_numFieldType) 4 Ryser c) = Ok [:: 2%:Q; 1] /\
  rmap fst (fl_compute_permanents (scaled_arith (1 : rat_numFieldType)) 0 Ryser (new_subcalc [:: [:: 1]] [:: 1]%N [:: 0]%N)) = Ok [:: 2%:Q] /\
  accurate 1 (scaled_arith (1 : rat_numFieldType)).
Proof. by split; [vm_compute|split; [vm_compute|apply: scaled_accurate]]. Qed.

(* C76: the Chin-Huh variant *)
Theorem C76_chin_huh :
  forall (F : numFieldType) (u : F) (A : arith F) (m : nat) (M : seq (seq F)) (s t : seq nat) (mu : F) (fuel : nat) (c : subcalc F), 0 <= u -> u <= 2%:R^-1 -> accurate u A -> is_square m M -> size t = size s -> (size s <= m)%N ->
  sumn s = (sumn t).+1 -> entries_bounded m M mu -> (code_number s <= fuel)%N ->
  sc_matrix c = M -> sc_input c = s -> sc_output c = t ->
  exists ps c', [/\ fl_compute_permanents A fuel ChinHuh c = Ok (ps, c'),
    [/\ sc_matrix c' = M, sc_input c' = s & sc_output c' = t], size ps = size s &
    forall i, (i < size s)%N -> error_bound u (sub_roundings (size s) (sumn t) (code_number s))
      (chin_huh_sub_scale (sumn t) (code_number s) mu) (sub_permanents M s t)`_i ps`_i].
Proof. exact C76_chin_huh_lemma. Qed.
Print Assumptions C76_chin_huh.

(* C76: the values of the two variants, whatever the histories of the objects, differ by at most the sum of the bounds *)
Theorem C76_agreement :
  forall (F : numFieldType) (u : F) (A : arith F) (m : nat) (M : seq (seq F)) (s t : seq nat) (mu : F) (fuel : nat) (c c' : subcalc F), 0 <= u -> u <= 2%:R^-1 -> accurate u A -> is_square m M -> size t = size s -> (size s <= m)%N ->
  sumn s = (sumn t).+1 -> entries_bounded m M mu -> (code_number s <= fuel)%N ->
  sc_matrix c = M -> sc_input c = s -> sc_output c = t -> sc_matrix c' = M -> sc_input c' = s -> sc_output c' = t ->
  exists ps d ps' d', [/\ fl_compute_permanents A fuel Ryser c = Ok (ps, d),
    fl_compute_permanents A fuel ChinHuh c' = Ok (ps', d') &
    forall i, (i < size s)%N -> `|ps`_i - ps'`_i| <= ((1 + u) ^+ sub_roundings (size s) (sumn t) (code_number s) - 1) *
      (ryser_sub_scale (sumn t) (code_number s) mu + chin_huh_sub_scale (sumn t) (code_number s) mu)].
Proof. exact C76_agreement_lemma. Qed.
Print Assumptions C76_agreement.
