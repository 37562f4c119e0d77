(* Final forms of the lemmas behind the property theorems: C76 (rounding errors of the sub-matrix permanents calculators). *)
From mathcomp Require Import all_ssreflect all_algebra ring zify.
From Verif Require Import Base SpecStates Combi SpecPerm ModelPerm ModelFloat ModelFloatSub SpecFloat SpecFloatSub ProofFloat ProofFloat4 ProofFloatSub2.
Set Implicit Arguments.
Unset Strict Implicit.
Unset Printing Implicit Defensive.
Import Order.TTheory GRing.Theory Num.Theory.
Local Open Scope ring_scope.
Local Open Scope py_scope.

Lemma C76_exact_arithmetic_lemma :
  forall (F : numFieldType) (fuel : nat) (k : guan_kind) (c : subcalc F),
  fl_compute_permanents (exact_arith F) fuel k c = compute_permanents fuel k c.
Proof.
exact: fl_compute_permanents_exact.
Qed.

Lemma C76_ryser_lemma :
  forall (F : numFieldType) (u : F) (A : arith F) (m : nat) (M : seq (seq F)) (s t : seq nat) (mu : F) (fuel : nat) (c : subcalc F), 0 <= u -> u <= 2%:R^-1 -> accurate u A -> is_square m M -> size t = size s -> (size s <= m)%N ->
  sumn s = (sumn t).+1 -> entries_bounded m M mu -> (code_number s <= fuel)%N ->
  sc_matrix c = M -> sc_input c = s -> sc_output c = t ->
  exists ps c', [/\ fl_compute_permanents A fuel Ryser c = Ok (ps, c'),
    [/\ sc_matrix c' = M, sc_input c' = s & sc_output c' = t], size ps = size s &
    forall i, (i < size s)%N -> error_bound u (sub_roundings (size s) (sumn t) (code_number s))
      (ryser_sub_scale (sumn t) (code_number s) mu) (sub_permanents M s t)`_i ps`_i].
Proof.
move=> F u A m M s t mu fuel c u0 u2 ac sq ts sm st mb fu e1 e2 e3.
have [ps [c' [-> d sp np]]] := fl_sub_nearE u0 u2 ac sq ts sm st mb Ryser e1 e2 e3 fu.
by exists ps, c'; split=> // i il; have [_ h] := np i il.
Qed.

Lemma C76_chin_huh_lemma :
  forall (F : numFieldType) (u : F) (A : arith F) (m : nat) (M : seq (seq F)) (s t : seq nat) (mu : F) (fuel : nat) (c : subcalc F), 0 <= u -> u <= 2%:R^-1 -> accurate u A -> is_square m M -> size t = size s -> (size s <= m)%N ->
  sumn s = (sumn t).+1 -> entries_bounded m M mu -> (code_number s <= fuel)%N ->
  sc_matrix c = M -> sc_input c = s -> sc_output c = t ->
  exists ps c', [/\ fl_compute_permanents A fuel ChinHuh c = Ok (ps, c'),
    [/\ sc_matrix c' = M, sc_input c' = s & sc_output c' = t], size ps = size s &
    forall i, (i < size s)%N -> error_bound u (sub_roundings (size s) (sumn t) (code_number s))
      (chin_huh_sub_scale (sumn t) (code_number s) mu) (sub_permanents M s t)`_i ps`_i].
Proof.
move=> F u A m M s t mu fuel c u0 u2 ac sq ts sm st mb fu e1 e2 e3.
have [ps [c' [-> d sp np]]] := fl_sub_nearE u0 u2 ac sq ts sm st mb ChinHuh e1 e2 e3 fu.
by exists ps, c'; split=> // i il; have [_ h] := np i il.
Qed.

Lemma C76_agreement_lemma :
  forall (F : numFieldType) (u : F) (A : arith F) (m : nat) (M : seq (seq F)) (s t : seq nat) (mu : F) (fuel : nat) (c c' : subcalc F), 0 <= u -> u <= 2%:R^-1 -> accurate u A -> is_square m M -> size t = size s -> (size s <= m)%N ->
  sumn s = (sumn t).+1 -> entries_bounded m M mu -> (code_number s <= fuel)%N ->
  sc_matrix c = M -> sc_input c = s -> sc_output c = t -> sc_matrix c' = M -> sc_input c' = s -> sc_output c' = t ->
  exists ps d ps' d', [/\ fl_compute_permanents A fuel Ryser c = Ok (ps, d),
    fl_compute_permanents A fuel ChinHuh c' = Ok (ps', d') &
    forall i, (i < size s)%N -> `|ps`_i - ps'`_i| <= ((1 + u) ^+ sub_roundings (size s) (sumn t) (code_number s) - 1) *
      (ryser_sub_scale (sumn t) (code_number s) mu + chin_huh_sub_scale (sumn t) (code_number s) mu)].
Proof.
move=> F u A m M s t mu fuel c c' u0 u2 ac sq ts sm st mb fu e1 e2 e3 e4 e5 e6.
have [ps [d [-> _ _ np]]] := fl_sub_nearE u0 u2 ac sq ts sm st mb Ryser e1 e2 e3 fu.
have [ps' [d' [-> _ _ np']]] := fl_sub_nearE u0 u2 ac sq ts sm st mb ChinHuh e4 e5 e6 fu.
exists ps, d, ps', d'; split=> // i il; have [_ h] := np i il; have [_ h'] := np' i il.
rewrite mulrDr; apply: le_trans (ler_dist_add (sub_permanents M s t)`_i _ _) _.
by apply: ler_add => //; rewrite distrC.
Qed.
