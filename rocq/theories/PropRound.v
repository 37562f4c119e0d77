(* Property theorems: C78 (operations built from a rounding of real numbers).  Only statements; proofs elsewhere. *)
From mathcomp Require Import all_ssreflect all_algebra complex realalg ring zify.
From Verif Require Import Base SpecStates Combi SpecPerm SpecBS ModelStates ModelPerm ModelDist ProofDist1 SpecProb ModelGcc ModelGccB ModelFloat ModelFloatGcc ModelFloatGccB SpecFloat SpecFloatGcc SpecFloatSub SpecFloatGccB ModelRound SpecRound ProofGccB2 ProofRound2 LemRound.
Set Implicit Arguments.
Unset Strict Implicit.
Unset Printing Implicit Defensive.
Import Order.TTheory GRing.Theory Num.Theory.
Local Open Scope ring_scope.
Local Open Scope py_scope.

(* C78: if every real operation rounds with a relative error of at most d, all operations of real_arith are accurate up to 48 d, whatever the order of the multiplications of a power; so are sums in any order, sums from left to right starting at 0, and the compensated sum *)
Theorem C78_real_operations :
  forall (R : rcfType) (d : R) (rnd : R -> R) (Op Os : nat -> tree), 0 <= d -> 24%:R * d <= 1 -> rounding d rnd -> order_ok Op -> order_ok Os ->
  [/\ accurate (48%:R * d) (real_arith rnd Op), accurate_sum (48%:R * d) (r_sum rnd Os),
      accurate_sum (48%:R * d) (foldl (f_add (real_arith rnd Op)) 0) & accurate_sum (48%:R * d) (kahan_sum rnd)].
Proof. exact C78_real_operations_lemma. Qed.
Print Assumptions C78_real_operations.

(* C78: the operations on complex numbers, with products of four rounded multiplications and quotients after Smith, and the modulus are accurate up to 48 d *)
Theorem C78_complex_operations :
  forall (R : rcfType) (d : R) (rnd : R -> R) (Op Os : nat -> tree), 0 <= d -> 24%:R * d <= 1 -> rounding d rnd -> order_ok Op -> order_ok Os ->
  accurate ((48%:R * d)%:C)%C (complex_arith rnd Op) /\ (forall z, `|c_abs rnd z - py_abs z| <= 48%:R * d * py_abs z).
Proof. exact C78_complex_operations_lemma. Qed.
Print Assumptions C78_complex_operations.

(* C78: the accuracy is 2 ((1 + d)^12 - 1), which is at most 48 d *)
Theorem C78_sharper :
  forall (R : rcfType) (d : R) (rnd : R -> R) (Op Os : nat -> tree), 0 <= d -> 24%:R * d <= 1 -> rounding d rnd -> order_ok Op -> order_ok Os ->
  [/\ accurate ((op_accuracy d)%:C)%C (complex_arith rnd Op), accurate (op_accuracy d) (real_arith rnd Op),
      (forall z, `|c_abs rnd z - py_abs z| <= op_accuracy d * py_abs z) & d <= op_accuracy d <= 48%:R * d].
Proof. exact C78_sharper_lemma. Qed.
Print Assumptions C78_sharper.

(* C78: the order from left to right and the order of halves use every operand once *)
Theorem C78_orders :
  order_ok left_order /\ order_ok pairwise_order.
Proof. exact C78_orders_lemma. Qed.
Print Assumptions C78_orders.

(* C78: in every archimedean real closed field there are roundings to p binary digits; they have relative errors of at most 2^-p *)
Theorem C78_binary_digits :
  forall (R : rcfType) (p : nat), Num.archimedean_axiom R -> (0 < p)%N ->
  (exists rnd : R -> R, forall x, binary_rounding p x (rnd x)) /\
  (forall rnd : R -> R, (forall x, binary_rounding p x (rnd x)) -> rounding (2%:R ^+ p)^-1 rnd).
Proof. exact C78_binary_digits_lemma. Qed.
Print Assumptions C78_binary_digits.

Example C78_example : (* roundings to 53 binary digits; 24 2^-53 <= 1 *)
  (exists rnd : realalg -> realalg, forall x, binary_rounding 53 x (rnd x)) /\ 24%:R * (2%:R ^+ 53)^-1 <= 1 :> realalg.
Proof.
have ar : Num.archimedean_axiom [rcfType of realalg].
  by move=> x; exists (Num.bound `|x|); exact: (@archi_boundP realalg_archiFieldType `|x| (normr_ge0 x)).
split; first by have [h _] := @C78_binary_digits [rcfType of realalg] 53 ar isT.
by rewrite ler_pdivr_mulr ?exprn_gt0 ?ltr0n // mul1r -natrX ler_nat (leq_trans (_ : _ <= 2 ^ 5)%N) // leq_exp2l.
Qed.

(* C78: the permanent calculators with these operations are accurate: k roundings of the calculator cost 96 k d *)
Theorem C78_permanents :
  forall (R : rcfType) (d : R) (rnd : R -> R) (Op Os : nat -> tree) (m : nat) (M : seq (seq (ComplexField.complex_numFieldType R))) (s t : seq nat) (mu : (ComplexField.complex_numFieldType R)) (gray : nat -> seq nat) (fuel : nat) (a : any_calc (ComplexField.complex_numFieldType R)), 0 <= d -> 24%:R * d <= 1 -> rounding d rnd -> order_ok Op -> order_ok Os ->
  is_square m M -> size t = size s -> (size s <= m)%N -> s != [::] -> sumn s = sumn t -> entries_bounded m M mu -> 0 <= mu ->
  gray_ok gray (sumn s) -> (code_number s <= fuel)%N ->
  calc_matrix a = M -> calc_input a = s -> calc_output a = t ->
  exists v a', fl_compute_any (complex_arith rnd Op) gray fuel a = Ok (v, a') /\
    ((96 * any_roundings (size s) (sumn s))%:R * d <= 1 ->
     `|v - bs_permanent M s t| <= (((96 * any_roundings (size s) (sumn s))%:R * d)%:C)%C * any_scale (sumn s) mu).
Proof. exact C78_permanents_lemma. Qed.
Print Assumptions C78_permanents.

(* C78: the samplers of C75 and C77 with these operations: sum() from left to right, the check of choice with the compensated sum, the binary search of numpy *)
Theorem C78_samplers :
  forall (R : rcfType) (d : R) (rnd : R -> R) (Op Os : nat -> tree) (eps : R) (N : nat) (gray : nat -> seq nat) (fuel m : nat) (U V : seq (seq (ComplexField.complex_numFieldType R))) (s : seq nat) (k : nat) (f : seq (seq nat) -> R), 0 <= d -> 24%:R * d <= 1 -> rounding d rnd -> order_ok Op -> order_ok Os ->
  (0 < N)%N -> unitary m U -> is_square m V -> 0 <= eps ->
  (forall j i, (j < m)%N -> (i < m)%N -> `|ent V j i - ent U j i| <= (eps%:C)%C) ->
  size s = m -> gray_ok gray (sumn s) -> (code_number s <= fuel)%N -> (forall L, 0 <= f L <= 1) ->
  let A := complex_arith rnd Op in let B := real_arith rnd Op in let f_sum := foldl (f_add B) 0 in
  (forall g : gcc R, calc_matrix (g_calc g) = V -> (2 * m + 1 + code_number s)%:R * (48%:R * d) <= 8%:R^-1 ->
     exists v, has_exp (on_ok (fun z => f z.1)) (fl_gcc_simulate A B (c_abs rnd) f_sum gray fuel N s k g) v /\
       `|v - iid_exp (comps m (sumn s)) (bs_prob U s) k f| <= k%:R * gcc_error (48%:R * d) eps N m s) /\
  (forall b : gccb R, calc_matrix (b_calc b) = V -> (9 * m + 4)%:R * (48%:R * d) <= (2%:R ^+ 27)^-1 ->
     exists v, has_exp (on_ok (fun z => f z.1)) (fl_gccb_simulate A B (c_abs rnd) f_sum (kahan_sum rnd) (@npy_search R) fuel N s k b) v /\
       `|v - iid_exp (comps m (sumn s)) (bs_prob U s) k f| <= k%:R * gccb_error (48%:R * d) eps N m s (sumn s)).
Proof. exact C78_samplers_lemma. Qed.
Print Assumptions C78_samplers.
