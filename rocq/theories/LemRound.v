(* Final forms of the lemmas behind the property theorems: C78 (operations built from a rounding of real numbers). *)
From mathcomp Require Import all_ssreflect all_algebra complex ring zify.
From Verif Require Import Base SpecStates Combi SpecPerm SpecBS ModelStates ModelPerm ModelDist ProofDist1 SpecProb ModelGcc ModelGccB ModelFloat ModelFloatGcc ModelFloatGccB SpecFloat SpecFloatGcc SpecFloatSub SpecFloatGccB ModelRound SpecRound ProofFloat ProofRound1 ProofRound2 ProofRound3 ProofRound4 LemFloat LemFloatGcc LemFloatGccB.
Set Implicit Arguments.
Unset Strict Implicit.
Unset Printing Implicit Defensive.
Import Order.TTheory GRing.Theory Num.Theory.
Local Open Scope ring_scope.
Local Open Scope py_scope.

Lemma accurate_mono (F : numFieldType) (u u' : F) (A : arith F) : 0 <= u -> u <= u' -> accurate u A -> accurate u' A.
Proof.
move=> u0 uu [h1 h2 h3 h4 h5 h6 h7 h8].
have m (x y : F) : `|x| <= u * `|y| -> `|x| <= u' * `|y| by move=> h; apply: le_trans h _; rewrite ler_wpmul2r.
split; try by move=> *; apply: m; auto.
move=> x e; apply: le_trans (h5 x e) _; rewrite ler_wpmul2r // ler_add2r.
by apply: ler_expn2r; rewrite ?nnegrE ?addr_ge0 ?ler01 ?(le_trans u0 uu) // ler_add2l.
Qed.

Lemma accurate_sum_mono (R : rcfType) (u u' : R) (f : seq R -> R) : 0 <= u -> u <= u' -> accurate_sum u f -> accurate_sum u' f.
Proof.
move=> u0 uu h l; apply: le_trans (h l) _; apply: ler_wpmul2r; first exact: sumr_ge0.
rewrite ler_add2r; apply: ler_expn2r; rewrite ?nnegrE ?addr_ge0 ?ler01 ?(le_trans u0 uu) // ler_add2l //.
Qed.

Lemma d12_of (R : rcfType) (d : R) : 0 <= d -> 24%:R * d <= 1 -> 12%:R * d <= 1.
Proof. by move=> d0; apply: le_trans; apply: ler_wpmul2r => //; rewrite ler_nat. Qed.

Section All.
Variables (R : rcfType) (d : R) (rnd : R -> R) (Op Os : nat -> tree).
Hypothesis d0 : 0 <= d.
Hypothesis d24 : 24%:R * d <= 1.
Hypothesis Hr : rounding d rnd.
Hypothesis oP : order_ok Op.
Hypothesis oS : order_ok Os.
Let d12 := d12_of d0 d24.
Let u48 := op_accuracy_le d0 d24.
Let u0 := u_ge0 d0.

Lemma u48_ge0 : 0 <= 48%:R * d. Proof. exact: le_trans u48. Qed.
Lemma real48 : accurate (48%:R * d) (real_arith rnd Op).
Proof. exact: accurate_mono u0 u48 (real_accurate d0 d12 Hr oP). Qed.
Lemma complex48 : accurate ((48%:R * d)%:C)%C (complex_arith rnd Op).
Proof. apply: accurate_mono (complex_accurate d0 d12 Hr oP); [by rewrite ler0c|by rewrite lecR]. Qed.
Lemma abs48 z : `|c_abs rnd z - py_abs z| <= 48%:R * d * py_abs z.
Proof. by apply: le_trans (c_abs_acc d0 d12 Hr z) _; apply: ler_wpmul2r => //; exact: sqrtr_ge0. Qed.
Lemma d48 : d <= 48%:R * d. Proof. by rewrite -[X in X <= _]mul1r; apply: ler_wpmul2r => //; rewrite ler1n. Qed.
Lemma sum48 : accurate_sum (48%:R * d) (r_sum rnd Os).
Proof. exact: accurate_sum_mono d0 d48 (real_sum d0 Hr oS). Qed.
Lemma foldl48 : accurate_sum (48%:R * d) (foldl (fun x y => rnd (x + y)) 0).
Proof. exact: accurate_sum_mono d0 d48 (real_foldl d0 Hr). Qed.
Lemma kahan48 : accurate_sum (48%:R * d) (kahan_sum rnd).
Proof. by apply: (kahan_accurate d0 d12 _ Hr); apply: ler_wpmul2r => //; rewrite ler_nat. Qed.
End All.

Lemma C78_real_operations_lemma :
  forall (R : rcfType) (d : R) (rnd : R -> R) (Op Os : nat -> tree), 0 <= d -> 24%:R * d <= 1 -> rounding d rnd -> order_ok Op -> order_ok Os ->
  [/\ accurate (48%:R * d) (real_arith rnd Op), accurate_sum (48%:R * d) (r_sum rnd Os),
      accurate_sum (48%:R * d) (foldl (f_add (real_arith rnd Op)) 0) & accurate_sum (48%:R * d) (kahan_sum rnd)].
Proof.
move=> R d rnd Op Os d0 d24 Hr oP oS; split; [exact: real48|exact: sum48|exact: foldl48|exact: kahan48].
Qed.

Lemma C78_complex_operations_lemma :
  forall (R : rcfType) (d : R) (rnd : R -> R) (Op Os : nat -> tree), 0 <= d -> 24%:R * d <= 1 -> rounding d rnd -> order_ok Op -> order_ok Os ->
  accurate ((48%:R * d)%:C)%C (complex_arith rnd Op) /\ (forall z, `|c_abs rnd z - py_abs z| <= 48%:R * d * py_abs z).
Proof.
move=> R d rnd Op Os d0 d24 Hr oP oS; split; [exact: complex48|exact: abs48].
Qed.

Lemma C78_sharper_lemma :
  forall (R : rcfType) (d : R) (rnd : R -> R) (Op Os : nat -> tree), 0 <= d -> 24%:R * d <= 1 -> rounding d rnd -> order_ok Op -> order_ok Os ->
  [/\ accurate ((op_accuracy d)%:C)%C (complex_arith rnd Op), accurate (op_accuracy d) (real_arith rnd Op),
      (forall z, `|c_abs rnd z - py_abs z| <= op_accuracy d * py_abs z) & d <= op_accuracy d <= 48%:R * d].
Proof.
move=> R d rnd Op Os d0 d24 Hr oP oS; have d12 := d12_of d0 d24.
split; [exact: complex_accurate|exact: real_accurate|exact: c_abs_acc|].
by rewrite op_accuracy_le // andbT d_u.
Qed.

Lemma C78_orders_lemma :
  order_ok left_order /\ order_ok pairwise_order.
Proof.
split; [exact: left_order_ok|exact: pairwise_order_ok].
Qed.

Lemma C78_binary_digits_lemma :
  forall (R : rcfType) (p : nat), Num.archimedean_axiom R -> (0 < p)%N ->
  (exists rnd : R -> R, forall x, binary_rounding p x (rnd x)) /\
  (forall rnd : R -> R, (forall x, binary_rounding p x (rnd x)) -> rounding (2%:R ^+ p)^-1 rnd).
Proof.
move=> R p ar p0; split; first by exists (bround ar p0); exact: bround_ok.
by move=> rnd h x; apply: binary_error.
Qed.

Lemma C78_permanents_lemma :
  forall (R : rcfType) (d : R) (rnd : R -> R) (Op Os : nat -> tree) (m : nat) (M : seq (seq (ComplexField.complex_numFieldType R))) (s t : seq nat) (mu : (ComplexField.complex_numFieldType R)) (gray : nat -> seq nat) (fuel : nat) (a : any_calc (ComplexField.complex_numFieldType R)), 0 <= d -> 24%:R * d <= 1 -> rounding d rnd -> order_ok Op -> order_ok Os ->
  is_square m M -> size t = size s -> (size s <= m)%N -> s != [::] -> sumn s = sumn t -> entries_bounded m M mu -> 0 <= mu ->
  gray_ok gray (sumn s) -> (code_number s <= fuel)%N ->
  calc_matrix a = M -> calc_input a = s -> calc_output a = t ->
  exists v a', fl_compute_any (complex_arith rnd Op) gray fuel a = Ok (v, a') /\
    ((96 * any_roundings (size s) (sumn s))%:R * d <= 1 ->
     `|v - bs_permanent M s t| <= (((96 * any_roundings (size s) (sumn s))%:R * d)%:C)%C * any_scale (sumn s) mu).
Proof.
move=> R d rnd Op Os m M s t mu gray fuel a d0 d24 Hr oP oS sq ts sm s0 st mb mu0 g fu e1 e2 e3.
have u0 : 0 <= ((48%:R * d)%:C)%C :> (ComplexField.complex_numFieldType R) by rewrite ler0c u48_ge0.
have [v [a' [h e]]] := C73_any_calculator_lemma u0 (complex48 d0 d24 Hr oP) sq ts sm s0 st mb g fu e1 e2 e3.
exists v, a'; split=> // hk.
have sc0 : 0 <= any_scale (sumn s) mu by rewrite /any_scale exprn_ge0 // mulr_ge0 // ler0n.
have hk' : (any_roundings (size s) (sumn s))%:R * ((48%:R * d)%:C)%C <= 2%:R^-1 :> (ComplexField.complex_numFieldType R).
  have -> : (any_roundings (size s) (sumn s))%:R = (((any_roundings (size s) (sumn s))%:R : R)%:C)%C :> (ComplexField.complex_numFieldType R) by rewrite rmorph_nat.
  have -> : 2%:R^-1 = ((2%:R^-1 : R)%:C)%C :> (ComplexField.complex_numFieldType R) by rewrite fmorphV rmorph_nat.
  rewrite -rmorphM lecR -(ler_pmul2l (_ : 0 < (2%:R : R))) ?ltr0n // mulfV ?pnatr_eq0 //.
  apply: le_trans hk; rewrite natrM; generalize ((any_roundings (size s) (sumn s))%:R : R) => x.
  by have -> : 2%:R * (x * (48%:R * d)) = 96%:R * x * d by ring.
have := C73_first_order_lemma u0 sc0 hk' e; move/le_trans; apply; apply: ler_wpmul2r => //.
have -> : 2%:R * (any_roundings (size s) (sumn s))%:R = (((2 * any_roundings (size s) (sumn s))%:R : R)%:C)%C :> (ComplexField.complex_numFieldType R).
  by rewrite rmorph_nat natrM.
rewrite -rmorphM lecR !natrM; generalize ((any_roundings (size s) (sumn s))%:R : R) => x.
by have -> : 2%:R * x * (48%:R * d) = 96%:R * x * d by ring.
Qed.

Lemma C78_samplers_lemma :
  forall (R : rcfType) (d : R) (rnd : R -> R) (Op Os : nat -> tree) (eps : R) (N : nat) (gray : nat -> seq nat) (fuel m : nat) (U V : seq (seq (ComplexField.complex_numFieldType R))) (s : seq nat) (k : nat) (f : seq (seq nat) -> R), 0 <= d -> 24%:R * d <= 1 -> rounding d rnd -> order_ok Op -> order_ok Os ->
  (0 < N)%N -> unitary m U -> is_square m V -> 0 <= eps ->
  (forall j i, (j < m)%N -> (i < m)%N -> `|ent V j i - ent U j i| <= (eps%:C)%C) ->
  size s = m -> gray_ok gray (sumn s) -> (code_number s <= fuel)%N -> (forall L, 0 <= f L <= 1) ->
  let A := complex_arith rnd Op in let B := real_arith rnd Op in let f_sum := foldl (f_add B) 0 in
  (forall g : gcc R, calc_matrix (g_calc g) = V -> (2 * m + 1 + code_number s)%:R * (48%:R * d) <= 8%:R^-1 ->
     exists v, has_exp (on_ok (fun z => f z.1)) (fl_gcc_simulate A B (c_abs rnd) f_sum gray fuel N s k g) v /\
       `|v - iid_exp (comps m (sumn s)) (bs_prob U s) k f| <= k%:R * gcc_error (48%:R * d) eps N m s) /\
  (forall b : gccb R, calc_matrix (b_calc b) = V -> (9 * m + 4)%:R * (48%:R * d) <= (2%:R ^+ 27)^-1 ->
     exists v, has_exp (on_ok (fun z => f z.1)) (fl_gccb_simulate A B (c_abs rnd) f_sum (kahan_sum rnd) (@npy_search R) fuel N s k b) v /\
       `|v - iid_exp (comps m (sumn s)) (bs_prob U s) k f| <= k%:R * gccb_error (48%:R * d) eps N m s (sumn s)).
Proof.
move=> R d rnd Op Os eps N gray fuel m U V s k f d0 d24 Hr oP oS N0 un sq e0 UV ss gr fu f01 A B f_sum.
have u0 := u48_ge0 d0 d24.
have aA := complex48 d0 d24 Hr oP; have aB := real48 d0 d24 Hr oP; have ab := abs48 d0 d24 Hr.
have as_ := foldl48 d0 Hr; have ac := kahan48 d0 d24 Hr.
have [sr _ _] := C77_binary_search_lemma R.
split=> [g em small|b em small].
- exact: (C75_sampler_lemma k (f := f) u0 aA aB ab as_ N0 un sq e0 UV ss gr fu small em f01).
- exact: (C77_sampler_lemma k (f := f) u0 aA aB ab as_ ac sr N0 un sq e0 UV ss fu small em f01).
Qed.
