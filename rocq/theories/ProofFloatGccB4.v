(* Version B with exact operations; the binary search of numpy. *)
From mathcomp Require Import all_ssreflect all_algebra complex.
From mathcomp Require Import ring zify.
From Verif Require Import Base SpecStates ModelStates ModelPerm ModelDist SpecProb ModelGcc ModelGccB ProofSel
  ModelFloat ModelFloatDist SpecFloat SpecFloatGcc SpecFloatGccB ProofFloat ProofFloat4 ProofFloatDist ProofFloatDist2
  ModelFloatSub ProofFloatSub2 ModelFloatGcc ModelFloatGccB.
Set Implicit Arguments.
Unset Strict Implicit.
Unset Printing Implicit Defensive.
Import Order.TTheory GRing.Theory Num.Theory.
Local Open Scope ring_scope.
Local Open Scope py_scope.

Section Exact.
Variable R : rcfType.
Notation CF := (ComplexField.complex_numFieldType R).
Notation A := (exact_arith CF).
Notation B := (exact_arith R).
Notation f_abs := (@py_abs R).
Notation f_sum := (@py_sum R).

Lemma fl_normalised_exact p : fl_normalised B f_sum p = [seq v / py_sum p | v <- p].
Proof.
rewrite /fl_normalised; apply: eq_map => v.
by have [->|_] := eqVneq (py_sum p) 0; rewrite ?invr0 ?mulr0.
Qed.

Lemma fl_compute_pmf_exact fuel b : fl_compute_pmf A B f_abs f_sum fuel b = compute_pmf fuel b.
Proof.
rewrite /fl_compute_pmf /compute_pmf; apply: rbind_ext2; first exact: fl_compute_permanents_exact.
move=> pc; apply: rbind_ext2; last by move=> p; rewrite fl_normalised_exact; reflexivity.
apply: rmapM_ext => j; apply: rbind_ext2; last by move=> y; reflexivity.
apply: rfoldl_ext => y i; apply: rbind_ext => x; apply: rbind_ext => q.
apply: rbind_ext => row; apply: rbind_ext => z; reflexivity.
Qed.

Lemma fl_choice_cdf_exact p : fl_choice_cdf B p = choice_cdf p.
Proof.
apply: eq_map => i; rewrite /fl_partial_sum take_size; reflexivity.
Qed.

Lemma fl_ub_weights_exact n eta : fl_ub_weights B n eta = ub_binomial_weights n eta.
Proof. by apply: eq_map => l; reflexivity. Qed.

End Exact.

Section Search.
Variable R : rcfType.
Implicit Types (v : R) (l : seq R).

Lemma npy_binsearchP v l n lo hi : (lo <= hi <= size l)%N -> (hi - lo < n)%N ->
  ((0 < lo)%N -> l`_lo.-1 <= v) -> ((hi < size l)%N -> v < l`_hi) ->
  let i := npy_binsearch v l n lo hi in
  [/\ (i <= size l)%N, (0 < i)%N -> l`_i.-1 <= v & (i < size l)%N -> v < l`_i].
Proof.
elim: n lo hi => [//|n IH] lo hi /andP[le hs] ln h1 h2 /=; case: ltnP => lt; last first.
  have e : lo = hi by apply/eqP; rewrite eqn_leq le lt.
  by split=> //; rewrite e.
set mid := (lo + _)%N; have m1 : (lo <= mid < hi)%N by rewrite /mid; apply/andP; split; lia.
case: (boolP (l`_mid <= v)) => h; refine (IH _ _ _ _ _ _) => //; try lia.
by move=> _; rewrite ltNge.
Qed.

Lemma npy_search_right : right_search (@npy_search R).
Proof. by move=> v l; apply: npy_binsearchP => //; rewrite ?subn0 ?ltnn ?ltnSn //=. Qed.

Lemma find_right : right_search (fun v l => find (fun c => v < c) l).
Proof.
move=> v l; rewrite /= find_size; split=> // [i0|il].
  have := @before_find _ 0 (fun c => v < c) l (find (fun c => v < c) l).-1.
  by rewrite prednK // => /(_ (leqnn _)) /negbT; rewrite -leNgt.
by apply: (nth_find 0 (a := fun c => v < c)); rewrite has_find.
Qed.

Lemma right_search_unique (s1 s2 : R -> seq R -> nat) v l : right_search s1 -> right_search s2 ->
  sorted (fun x y => x <= y) l -> s1 v l = s2 v l.
Proof.
move=> r1 r2 so.
have H s s' : right_search s -> right_search s' -> ~~ (s v l < s' v l)%N.
  move=> h h'; apply/negP => lt; have [_ _ a] := h v l; have [b c _] := h' v l.
  have {a} := a (leq_trans lt b); have {c} := c (leq_ltn_trans (leq0n _) lt).
  rewrite leNgt => /negP c a; apply: c; apply: lt_le_trans a _.
  have tr : transitive (fun x y : R => x <= y) by move=> x y z; apply: le_trans.
  have j0 : (0 < s' v l)%N by apply: leq_trans lt.
  have i1 : (s v l \in [pred i | (i < size l)%N]) by rewrite inE; apply: leq_trans lt b.
  have i2 : ((s' v l).-1 \in [pred i | (i < size l)%N]) by rewrite inE prednK.
  have i3 : (s v l <= (s' v l).-1)%N by rewrite -ltnS prednK.
  exact: (sorted_leq_nth tr (@lexx _ R) 0 so _ _ i1 i2 i3).
by have := H _ _ r1 r2; have := H _ _ r2 r1; lia.
Qed.

End Search.
