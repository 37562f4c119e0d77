(* Boson-sampling probabilities are non-negative and sum to one. *)
From mathcomp Require Import all_ssreflect all_algebra complex.
From mathcomp Require Import ring zify.
From Verif Require Import SpecStates Combi SpecPerm PermMath SpecBS BsMath BsComb.
Set Implicit Arguments.
Unset Strict Implicit.
Unset Printing Implicit Defensive.
Import GRing.Theory Num.Theory.
Local Open Scope ring_scope.

Section Norm.
Variable R : rcfType.
Notation C := R[i].
Implicit Types (U : seq (seq C)) (s t r T : seq nat).

Lemma unitary_on_sub m U s T : unitary_on m U s ->
  (forall i, (0 < nth 0%N T i)%N -> (0 < nth 0%N s i)%N) -> unitary_on m U T.
Proof. by move=> [sq H] l; split=> // i i' /l p /l p'; apply: H. Qed.

Lemma unitary_on_substate m U s T : unitary_on m U s -> substate T s -> unitary_on m U T.
Proof.
by move=> u /substateP[_ l]; apply: (unitary_on_sub u) => i p; apply: leq_trans p (l i).
Qed.

Lemma unitary_on_decr m U s i : unitary_on m U s -> unitary_on m U (decr s i).
Proof.
move=> u; apply: (unitary_on_sub u) => j; rewrite nth_decr; case: eqP => [->|//].
by case: (nth 0%N s i).
Qed.

Lemma unitaryW m U s : unitary m U -> (size s <= m)%N -> unitary_on m U s.
Proof.
move=> [sq H] sm; split=> // i i' /nth_pos_lt il /nth_pos_lt il'.
by apply: H; [apply: leq_trans il sm|apply: leq_trans il' sm].
Qed.

Lemma factprod_neq0 s : (factprod s)%:R != 0 :> R.
Proof. by rewrite pnatr_eq0 -lt0n factprod_gt0. Qed.

(* one step of the normalisation and of the samplers' forward recursion:
   weights g(t)/t! over the outputs with one more particle *)
Lemma comps_step (m k : nat) (g : seq nat -> R) :
  k.+1%:R * (\sum_(t <- comps m k.+1) g t / (factprod t)%:R) =
  \sum_(r <- comps m k) (\sum_(j < m) g (incr r j)) / (factprod r)%:R.
Proof.
rewrite mulr_sumr.
transitivity (\sum_(t <- comps m k.+1) \sum_(j < m) (nth 0%N t j)%:R * (g t / (factprod t)%:R)).
  apply: eq_big_seq => t; rewrite mem_comps => /andP[/eqP st /eqP e].
  by rewrite -e sumn_nth st natr_sum mulr_suml.
rewrite (comps_incr m k (G := fun j t => (nth 0%N t j)%:R * (g t / (factprod t)%:R))); last first.
  by move=> j t ->; rewrite mul0r.
apply: eq_big_seq => r; rewrite mem_comps => /andP[/eqP st _].
rewrite mulr_suml; apply: eq_bigr => j _; rewrite nth_incr eqxx factprod_incr ?st //.
by rewrite natrM invfM mulrCA; congr (_ * _); rewrite mulrA divff ?mul1r // pnatr_eq0.
Qed.

Lemma nsq_norm m U T : unitary_on m U T ->
  \sum_(t <- comps m (sumn T)) nsq (bs_permanent U T t) / (factprod t)%:R = (factprod T)%:R.
Proof.
move: {2}(sumn T) (erefl (sumn T)) => k; elim: k T => [|k IH] T e u.
  have /sumn0P eT : sumn T == 0%N by rewrite e.
  rewrite e comps_zero big_seq1 bs_permanent_vac ?e //; last by rewrite sumn_nseq mul0n.
  rewrite nsq1 /factprod big_nseq iter_muln_1 exp1n divr1 [in RHS]eT big_nseq iter_muln_1 exp1n //.
have k0 : (k.+1)%:R != 0 :> R by rewrite pnatr_eq0.
apply: (mulfI k0); rewrite e comps_step.
under eq_big_seq => r.
  rewrite mem_comps => /andP[/eqP sr /eqP er]; rewrite marginal ?er // mulr_suml.
  over.
rewrite exchange_big /= -e sumn_nth natr_sum mulr_suml; apply: eq_bigr => i _.
case: (posnP (nth 0%N T i)) => [->|p].
  by rewrite big1 ?mul0r // => r _; rewrite expr0n !mul0r.
under eq_bigr do rewrite -mulrA.
rewrite -mulr_sumr (_ : k = sumn (decr T i)); last by rewrite sumn_decr // e.
rewrite IH ?sumn_decr ?e //; last exact: unitary_on_decr.
by rewrite (factprod_decr p) natrM expr2 mulrA.
Qed.

Lemma bs_prob_ge0 U s t : 0 <= bs_prob U s t.
Proof. by rewrite mulr_ge0 ?nsq_ge0 ?invr_ge0 ?ler0n. Qed.

Lemma bs_prob_norm m U s : unitary_on m U s -> \sum_(t <- comps m (sumn s)) bs_prob U s t = 1.
Proof.
move=> u; have := nsq_norm u; rewrite /bs_prob => E.
under eq_bigr do rewrite natrM invfM mulrCA.
by rewrite -mulr_sumr E mulVf // factprod_neq0.
Qed.

Lemma fixed_loss_prob_ge0 U s t : 0 <= fixed_loss_prob U s t.
Proof.
rewrite mulr_ge0 ?invr_ge0 ?ler0n // sumr_ge0 // => T _.
by rewrite mulr_ge0 ?ler0n ?bs_prob_ge0.
Qed.

Lemma fixed_loss_norm m U s l : unitary_on m U s -> (l <= sumn s)%N ->
  \sum_(t <- comps m l) fixed_loss_prob U s t = 1.
Proof.
move=> u ls.
have c0 : 'C(sumn s, l)%:R != 0 :> R by rewrite pnatr_eq0 -lt0n bin_gt0.
transitivity ((\sum_(t <- comps m l) \sum_(T <- subs s | sumn T == l) (ways s T)%:R * bs_prob U T t)
   / 'C(sumn s, l)%:R).
  rewrite mulr_suml; apply: eq_big_seq => t; rewrite mem_comps => /andP[_ /eqP e].
  by rewrite /fixed_loss_prob e.
apply: (mulIf c0); rewrite mul1r divfK // -vandermonde exchange_big /=.
rewrite big_seq_cond [RHS]big_seq_cond; apply: eq_bigr => T /andP[]; rewrite mem_subs => sT /eqP <-.
by rewrite -mulr_sumr bs_prob_norm ?mulr1 //; apply: unitary_on_substate u sT.
Qed.

Lemma fixed_loss_full U s t : sumn t = sumn s -> fixed_loss_prob U s t = bs_prob U s t.
Proof.
move=> e; rewrite /fixed_loss_prob e -big_filter subs_full big_seq1 ways_self binn.
by rewrite mul1r divr1.
Qed.

Lemma binomial_weight_sum n (eta : R) : \sum_(l < n.+1) binomial_weight n eta l = 1.
Proof.
transitivity ((1 - eta + eta) ^+ n); last by rewrite subrK expr1n.
by rewrite exprDn; apply: eq_bigr => l _; rewrite /binomial_weight -mulrA mulr_natl mulrC.
Qed.

Lemma binomial_weight_ge0 n (eta : R) l : 0 <= eta <= 1 -> 0 <= binomial_weight n eta l.
Proof.
by move=> /andP[e0 e1]; rewrite !mulr_ge0 ?ler0n ?exprn_ge0 // subr_ge0.
Qed.

Lemma uniform_loss_ge0 U s eta t : 0 <= eta <= 1 -> 0 <= uniform_loss_prob U s eta t.
Proof. by move=> e; rewrite mulr_ge0 ?fixed_loss_prob_ge0 ?binomial_weight_ge0. Qed.

Lemma uniform_loss_norm m U s eta : unitary_on m U s ->
  \sum_(l < (sumn s).+1) \sum_(t <- comps m l) uniform_loss_prob U s eta t = 1.
Proof.
move=> u; rewrite -(binomial_weight_sum (sumn s) eta); apply: eq_bigr => l _.
transitivity (binomial_weight (sumn s) eta l * \sum_(t <- comps m l) fixed_loss_prob U s t).
  rewrite mulr_sumr; apply: eq_big_seq => t; rewrite mem_comps => /andP[_ /eqP e].
  by rewrite /uniform_loss_prob e.
by rewrite fixed_loss_norm ?mulr1 // -ltnS.
Qed.

End Norm.
