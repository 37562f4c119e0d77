(* Final forms of the lemmas behind the property theorems: C74 (rounding errors of the exact distributions). *)
From mathcomp Require Import all_ssreflect all_algebra complex ring zify.
From Verif Require Import Base SpecStates Combi SpecPerm SpecBS BsNorm ModelStates ModelPerm ModelDist ProofDist1 ModelFloat ModelFloatDist SpecFloat LemDist ProofFloat ProofFloat4 ProofFloatDist ProofFloatDist2.
Set Implicit Arguments.
Unset Strict Implicit.
Unset Printing Implicit Defensive.
Import Order.TTheory GRing.Theory Num.Theory.
Local Open Scope ring_scope.
Local Open Scope py_scope.

Lemma C74_exact_arithmetic_lemma :
  forall (R : rcfType) (H : eqType) (hash : seq nat -> H) (gray : nat -> seq nat) (fuel : nat)
    (cfg : config R) (a : any_calc (ComplexField.complex_numFieldType R)) (uc : uniform_calc R) (ts : seq (seq nat)),
  let A := exact_arith (ComplexField.complex_numFieldType R) in let B := exact_arith R in let f_abs := @py_abs R in
  [/\ fl_fixed_probabilities A B f_abs hash gray fuel cfg a ts = fixed_probabilities hash gray fuel cfg a ts,
      fl_new_uniform_calc B cfg a = new_uniform_calc cfg a
    & fl_uniform_probabilities A B f_abs hash gray fuel uc ts = uniform_probabilities hash gray fuel uc ts].
Proof.
move=> R H hash gray fuel cfg a uc ts A B f_abs; split; [exact: fl_fixed_exact|by []|exact: fl_uniform_exact].
Qed.

Lemma C74_fixed_loss_probabilities_lemma :
  forall (R : rcfType) (u : R) (A : arith (ComplexField.complex_numFieldType R)) (B : arith R) (f_abs : (ComplexField.complex_numFieldType R) -> R)
    (H : eqType) (hash : seq nat -> H) (gray : nat -> seq nat) (fuel m : nat) (U : seq (seq (ComplexField.complex_numFieldType R))) (s : seq nat) (mu eta : R) (lost : int) (l : nat) (a : any_calc (ComplexField.complex_numFieldType R)) (ts : seq (seq nat)),
  0 <= u -> accurate (u%:C)%C A -> accurate u B -> (forall z, `|f_abs z - py_abs z| <= u * py_abs z) ->
  is_square m U -> size s = m -> (0 < m)%N -> gray_ok gray (sumn s) -> (code_number s <= fuel)%N ->
  (forall t t', substate t s -> substate t' s -> hash t = hash t' -> t = t') ->
  entries_bounded m U (mu%:C)%C -> (l <= sumn s)%N -> all (is_state m l) ts ->
  exists ps a', [/\ fl_fixed_probabilities A B f_abs hash gray fuel (Config U s (sumn s) m lost l eta) a ts = Ok (ps, a'),
    size ps = size ts & forall i, (i < size ts)%N ->
      error_bound u (prob_roundings m l s) (any_scale l mu ^+ 2) (fixed_loss_prob U s (nth [::] ts i)) (nth 0 ps i)].
Proof.
move=> R u A B f_abs H hash gray fuel m U s mu eta lost l a ts u0 aA aB ab sq ss m0 gr fu hi mb le al.
have [ps [a' [E sp h]]] := fl_fixed_probabilitiesE u0 aA aB ab sq ss m0 gr fu hi mb a
  (cfg := Config U s (sumn s) m lost l eta) erefl erefl erefl erefl erefl le al.
by exists ps, a'; split=> // i /h [].
Qed.

Lemma C74_uniform_loss_probabilities_lemma :
  forall (R : rcfType) (u : R) (A : arith (ComplexField.complex_numFieldType R)) (B : arith R) (f_abs : (ComplexField.complex_numFieldType R) -> R)
    (H : eqType) (hash : seq nat -> H) (gray : nat -> seq nat) (fuel m : nat) (U : seq (seq (ComplexField.complex_numFieldType R))) (s : seq nat) (mu eta : R) (lost : int) (left : nat) (a : any_calc (ComplexField.complex_numFieldType R)) (ts : seq (seq nat)),
  0 <= u -> accurate (u%:C)%C A -> accurate u B -> (forall z, `|f_abs z - py_abs z| <= u * py_abs z) ->
  is_square m U -> size s = m -> (0 < m)%N -> gray_ok gray (sumn s) -> (code_number s <= fuel)%N ->
  (forall t t', substate t s -> substate t' s -> hash t = hash t' -> t = t') ->
  entries_bounded m U (mu%:C)%C -> 0 <= eta <= 1 -> all (fun t => (size t == m) && (sumn t <= sumn s)%N) ts ->
  exists ps, [/\ fl_uniform_probabilities A B f_abs hash gray fuel
      (fl_new_uniform_calc B (Config U s (sumn s) m lost left eta) a) ts = Ok ps,
    size ps = size ts & forall i, (i < size ts)%N -> let t := nth [::] ts i in
      error_bound u (prob_roundings m (sumn t) s + 2 * sumn s + 4)
        (binomial_weight (sumn s) eta (sumn t) * any_scale (sumn t) mu ^+ 2) (uniform_loss_prob U s eta t) (nth 0 ps i)].
Proof.
move=> R u A B f_abs H hash gray fuel m U s mu eta lost l a ts u0 aA aB ab sq ss m0 gr fu hi mb e01.
rewrite /fl_uniform_probabilities; elim: ts => [|t ts IH]; first by exists [::].
case/andP=> /andP[/eqP st le] al; have [ps [E sp h]] := IH al.
have [p Ep [_ hp]] := fl_uniform_outcomeE u0 aA aB ab sq ss m0 gr fu hi mb e01 a
  (cfg := Config U s (sumn s) m lost l eta) erefl erefl erefl erefl erefl st le.
exists (p :: ps); rewrite [rmapM _ _]/= Ep /= E /= sp; split=> //.
by case=> [_|i il] /=; [exact: hp|exact: h].
Qed.

Lemma C74_nonnegative_lemma :
  forall (R : rcfType) (u : R) (A : arith (ComplexField.complex_numFieldType R)) (B : arith R) (f_abs : (ComplexField.complex_numFieldType R) -> R)
    (H : eqType) (hash : seq nat -> H) (gray : nat -> seq nat) (fuel m : nat)  (U : seq (seq (ComplexField.complex_numFieldType R))) (s : seq nat) (eta : R) (lost : int) (l : nat) (a : any_calc (ComplexField.complex_numFieldType R)) (ts : seq (seq nat)),
  0 <= u -> accurate u B -> (forall z, `|f_abs z - py_abs z| <= u * py_abs z) -> (sumn s + 2)%:R * u <= 2%:R^-1 ->
  0 <= eta <= 1 -> (l <= sumn s)%N -> all (fun t => sumn t <= sumn s)%N ts ->
  let cfg := Config U s (sumn s) m lost l eta in
  (forall ps a', fl_fixed_probabilities A B f_abs hash gray fuel cfg a ts = Ok (ps, a') -> forall p, p \in ps -> 0 <= p) /\
  (forall ps, fl_uniform_probabilities A B f_abs hash gray fuel (fl_new_uniform_calc B cfg a) ts = Ok ps -> forall p, p \in ps -> 0 <= p).
Proof.
move=> R u A B f_abs H hash gray fuel m U s eta lost l a ts u0 aB ab nu e01 le al cfg.
have W k : (k <= sumn s + 2)%N -> k%:R * u <= 2%:R^-1.
  by move=> kl; apply: le_trans nu; rewrite ler_wpmul2r ?ler_nat.
have u2 : 2%:R * u <= 2%:R^-1 by apply: W; rewrite leq_addl.
split=> [ps a' E|ps E]; first exact: (fl_fixed_ge0 u0 aB ab u2 (cfg := cfg) _ E).
by apply: (fl_uniform_ge0 u0 aB ab u2 (cfg := cfg) e01 _ _ E) => //; apply: W; rewrite leq_addr.
Qed.

Lemma C74_fixed_loss_distribution_lemma :
  forall (R : rcfType) (u : R) (A : arith (ComplexField.complex_numFieldType R)) (B : arith R) (f_abs : (ComplexField.complex_numFieldType R) -> R)
    (H : eqType) (hash : seq nat -> H) (gray : nat -> seq nat) (m : nat) (U : seq (seq (ComplexField.complex_numFieldType R))) (s : seq nat) (eta : R) (lost : int) (l : nat) (a : any_calc (ComplexField.complex_numFieldType R)),
  0 <= u -> accurate (u%:C)%C A -> accurate u B -> (forall z, `|f_abs z - py_abs z| <= u * py_abs z) ->
  unitary m U -> size s = m -> (0 < m)%N -> gray_ok gray (sumn s) ->
  (forall t t', substate t s -> substate t' s -> hash t = hash t' -> t = t') ->
  (l <= sumn s)%N ->
  exists (L : seq (seq nat)) (f0 : nat), forall fuel, (f0 <= fuel)%N ->
  let cfg := Config U s (sumn s) m lost l eta in
  let bound := (size L)%:R * (((1 + u) ^+ prob_roundings m l s - 1) * any_scale l 1 ^+ 2) in
  exists (P : seq R) a',
  [/\ fixed_outcomes fuel cfg = Ok L, fl_fixed_distribution A B f_abs hash gray fuel cfg a = Ok (P, a'), size P = size L /\ uniq L,
      \sum_(x <- zip P L) `|x.1 - fixed_loss_prob U s x.2| <= bound & `|\sum_(p <- P) p - 1| <= bound].
Proof.
move=> R u A B f_abs H hash gray m U s eta lost l a u0 aA aB ab un ss m0 gr hi le.
have [L [f0 C22]] := C22_fixed_loss_distribution_lemma eta lost a un ss m0 gr hi le.
exists L, (maxn f0 (code_number s)) => fuel; rewrite geq_max => /andP[f1 f2] cfg bound.
have [_ [_ [E1 _ [-> [uL mL]] _]]] := C22 fuel f1; rewrite big_map => <-.
have al : all (is_state m l) L by apply/allP => t; rewrite mL.
have [sq _] := un.
have [P [a' [E sp h]]] := C74_fixed_loss_probabilities_lemma eta lost a u0 aA aB ab sq ss m0 gr f2 hi
  (unitary_entries un) le al.
exists P, a'; rewrite /fl_fixed_distribution E1.
have [h1 h2] := sum_dist (d := fun=> ((1 + u) ^+ prob_roundings m l s - 1) * any_scale l 1 ^+ 2) sp h.
rewrite big_const_seq count_predT iter_addr_0 -mulr_natl in h1 h2.
by split.
Qed.

Lemma C74_uniform_loss_distribution_lemma :
  forall (R : rcfType) (u : R) (A : arith (ComplexField.complex_numFieldType R)) (B : arith R) (f_abs : (ComplexField.complex_numFieldType R) -> R)
    (H : eqType) (hash : seq nat -> H) (gray : nat -> seq nat) (m : nat) (U : seq (seq (ComplexField.complex_numFieldType R))) (s : seq nat) (eta : R) (lost : int) (left : nat) (a : any_calc (ComplexField.complex_numFieldType R)),
  0 <= u -> accurate (u%:C)%C A -> accurate u B -> (forall z, `|f_abs z - py_abs z| <= u * py_abs z) ->
  unitary m U -> size s = m -> (0 < m)%N -> gray_ok gray (sumn s) ->
  (forall t t', substate t s -> substate t' s -> hash t = hash t' -> t = t') ->
  0 <= eta <= 1 ->
  exists (L : seq (seq nat)) (f0 : nat), forall fuel, (f0 <= fuel)%N ->
  let uc := fl_new_uniform_calc B (Config U s (sumn s) m lost left eta) a in
  let bound := \sum_(t <- L) ((1 + u) ^+ (prob_roundings m (sumn t) s + 2 * sumn s + 4) - 1) *
      (binomial_weight (sumn s) eta (sumn t) * any_scale (sumn t) 1 ^+ 2) in
  exists P : seq R,
  [/\ uniform_outcomes fuel uc = Ok L, fl_uniform_distribution A B f_abs hash gray fuel uc = Ok P, size P = size L /\ uniq L,
      \sum_(x <- zip P L) `|x.1 - uniform_loss_prob U s eta x.2| <= bound & `|\sum_(p <- P) p - 1| <= bound].
Proof.
move=> R u A B f_abs H hash gray m U s eta lost l a u0 aA aB ab un ss m0 gr hi e01.
have [L [f0 C23]] := C23_uniform_loss_distribution_lemma lost l a un ss m0 gr hi e01.
exists L, (maxn f0 (code_number s)) => fuel; rewrite geq_max => /andP[f1 f2] uc bound.
have [_ [E1 _ [-> [uL mL]] _]] := C23 fuel f1; rewrite big_map => <-.
have al : all (fun t => (size t == m) && (sumn t <= sumn s)%N) L by apply/allP => t; rewrite mL.
have [sq _] := un.
have [P [E sp h]] := C74_uniform_loss_probabilities_lemma lost l a u0 aA aB ab sq ss m0 gr f2 hi
  (unitary_entries un) e01 al.
exists P; rewrite /fl_uniform_distribution; have -> : uniform_outcomes fuel uc = Ok L by exact: E1.
have [h1 h2] := sum_dist (d := fun t => ((1 + u) ^+ (prob_roundings m (sumn t) s + 2 * sumn s + 4) - 1) *
      (binomial_weight (sumn s) eta (sumn t) * any_scale (sumn t) 1 ^+ 2)) sp h.
by split.
Qed.
