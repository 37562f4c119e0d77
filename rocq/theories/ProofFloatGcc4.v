(* The samplers with exact operations; selection stays in range. *)
From mathcomp Require Import all_ssreflect all_algebra complex.
From mathcomp Require Import ring zify.
From Verif Require Import Base SpecStates ModelStates ModelPerm ModelDist SpecProb ModelGcc ModelGccB
  ModelFloat ModelFloatDist SpecFloat SpecFloatGcc ProofFloat ProofFloat4 ProofFloatDist ProofFloatDist2 ModelFloatGcc.
Set Implicit Arguments.
Unset Strict Implicit.
Unset Printing Implicit Defensive.
Import Order.TTheory GRing.Theory Num.Theory.
Local Open Scope ring_scope.
Local Open Scope py_scope.

Section Exact.
Variable R : rcfType.
Notation CF := (ComplexField.complex_numFieldType R).
Variables (gray : nat -> seq nat) (fuel : nat).
Notation A := (exact_arith CF).
Notation B := (exact_arith R).
Notation f_abs := (@py_abs R).
Notation f_sum := (@py_sum R).

Lemma fl_calculate_weight_exact s kv : fl_calculate_weight B s kv = calculate_weight R s kv.
Proof.
rewrite /fl_calculate_weight /calculate_weight; apply: rbind_ext => a; apply: rbind_ext => b.
by rewrite [f_quot _ _ _]/= !pmulrn; apply: rfoldl_ext => y z; apply: rbind_ext => x; apply: rbind_ext => -[].
Qed.

Lemma fl_layer_weights_exact s Ts : fl_layer_weights B f_sum s Ts = layer_weights R s Ts.
Proof.
rewrite /fl_layer_weights /layer_weights; apply: rbind_ext => kvs.
by apply: rbind_ext2 (rmapM_ext _ _) _ => // x; apply: fl_calculate_weight_exact.
Qed.

Lemma fl_outputs_probability_exact a T t :
  fl_outputs_probability A B f_abs gray fuel a T t = outputs_probability gray fuel a T t.
Proof.
rewrite /fl_outputs_probability /outputs_probability.
by apply: rbind_ext2 (fl_compute_any_exact _ _ _) _.
Qed.

Lemma fl_pmf_entry_exact a Ts ws t : fl_pmf_entry A B f_abs gray fuel a Ts ws t = pmf_entry gray fuel a Ts ws t.
Proof.
apply: rfoldl_ext => y z; apply: rbind_ext => T.
by apply: rbind_ext2 (fl_outputs_probability_exact _ _ _) _.
Qed.

Lemma fl_new_layer_exact g : fl_new_layer A B f_abs f_sum gray fuel g = new_layer gray fuel g.
Proof.
rewrite /fl_new_layer /new_layer; apply: rbind_ext2 (fl_layer_weights_exact _ _) _ => ws.
apply: rbind_ext => outs; apply: rbind_ext2; last by move=> y; reflexivity.
apply: rfoldl_ext => y z; apply: rbind_ext2; first exact: fl_pmf_entry_exact.
by move=> pa; reflexivity.
Qed.

Lemma fl_ma_new_layer_exact g : fl_ma_new_layer A B f_abs f_sum gray fuel g = ma_new_layer gray fuel g.
Proof.
rewrite /fl_ma_new_layer /ma_new_layer; apply: rbind_ext2 (fl_layer_weights_exact _ _) _ => ws.
apply: rbind_ext2; last by move=> y; reflexivity.
apply: rfoldl_ext => y z; apply: rbind_ext => t; apply: rbind_ext2; first exact: fl_pmf_entry_exact.
by move=> pa; reflexivity.
Qed.

Lemma fl_cum_search_exact (v acc : R) i l : fl_cum_search B v acc i l = cum_search v acc i l.
Proof. by elim: l acc i => //= x l IH acc i; case: ifP. Qed.

End Exact.

Section Range.
Variable R : rcfType.
Variable B : arith R.

Lemma fl_search_lt (v acc : R) i l : v < foldl (f_add B) acc l -> ~~ (v < acc) || (l != [::]) ->
  (i <= fl_cum_search B v acc i l < i + size l)%N.
Proof.
elim: l acc i => [|x l IH] acc i /= h; first by rewrite h.
case: ifP => [_|/negbT nl _]; first by rewrite leqnn addnS leq_addr.
by have := IH _ i.+1 h; rewrite nl => /(_ isT); lia.
Qed.

Lemma fl_search_end (v acc : R) i l : (forall j, (0 < j <= size l)%N -> foldl (f_add B) acc (take j l) <= v) ->
  fl_cum_search B v acc i l = (i + size l)%N.
Proof.
elim: l acc i => [|x l IH] acc i h /=; first by rewrite addn0.
have := h 1%N isT; rewrite /= take0 /= leNgt => /negbTE ->.
rewrite IH ?addnS // => j /andP[j0 jl]; exact: (h j.+1).
Qed.

End Range.
