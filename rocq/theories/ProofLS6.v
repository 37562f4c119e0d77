(* The lossy-state sampler acts on the wrong modes: three modes, one of them
   not approximated. *)
From mathcomp Require Import all_ssreflect all_algebra complex.
From mathcomp Require Import ring zify.
From Verif Require Import Base SpecStates Combi SpecPerm PermMath SpecBS BsMath BsComb BsNorm.
From Verif Require Import ModelStates ModelPerm ModelDist SpecProb ProbMath ModelGcc ModelGccB ProofGcc3 ProofSel SpecGcc LemGcc ModelNet SpecNet.
From Verif Require Import ProofGccB2 ProofNet1 ProofNet2 ProofNet5 ProofNet7 ProofBobs1 ProofBobs2 ProofBobs3 ProofBobs4 ProofBobs5.
From Verif Require Import ModelBobs ModelLState SpecBobs SpecLState ProofLS1 ProofLS2 ProofLS3 ProofLS4 ProofLS5.
Set Implicit Arguments.
Unset Strict Implicit.
Unset Printing Implicit Defensive.
Import Order.TTheory GRing.Theory Num.Theory.
Local Open Scope ring_scope.
Local Open Scope py_scope.

Section Wrong.
Variable R : rcfType.
Notation C := (ComplexField.complex_numFieldType R).
Notation mat := (seq (seq C)).
Variable cis : R -> C.
Hypothesis ok : cis_ok cis.
Notation s := ([:: 1; 1; 0]%N).
Notation t := ([:: 2; 0; 0]%N).
Notation U := (np_eye C 3).

Lemma bs_both (A : mat) : bs_prob A s t = 2%:R * nsq (ent A 0 0) * nsq (ent A 0 1).
Proof.
rewrite /bs_prob bs_permanent_PerO // (_ : particle_modes t = [:: 0; 0]%N) //.
have -> : PerO (ent A) [:: 0; 0]%N s = 2%:R * (ent A 0 0 * ent A 0 1).
  rewrite PerO_cons !big_ord_recl big_ord0 [size _]/= /= /bump /= !addn0 !mul0r !addr0.
  rewrite !decrE /=.
  rewrite !big_ord_recl !big_ord0 /= /bump /= ?addn0 !mul0r ?addr0 ?add0r; ring.
have -> : (factprod s * factprod t)%N = 2%N by rewrite /factprod !big_cons !big_nil.
rewrite !nsqM nsq_nat; have n2 : (2%:R : R) != 0 by rewrite pnatr_eq0.
by rewrite -mulrA mulrC -!mulrA mulKf // mulrA mulrC mulrA.
Qed.

Lemma ls_both (A : mat) : lstate_prob 1 3 1 A s t = bs_prob A s t.
Proof.
rewrite /lstate_prob (_ : take 1 s = [:: 1%N]) // (_ : sumn (drop 1 s) = 1%N) //.
rewrite (_ : subs [:: 1%N] = [:: [:: 0%N]; [:: 1%N]]) // big_cons big_seq1.
rewrite big1 => [|l /eqP e]; last by have := ltn_ord l; rewrite -[val l]/(nat_of_ord l); move: e => /=; lia.
rewrite add0r (big_pred1 (Ordinal (isT : (1 < 2)%N))) => [|l]; last first.
  by rewrite -[RHS]/(val l == 1%N) /=; apply/eqP/eqP; lia.
rewrite /left_weight /binomial_weight (_ : sumn [:: 1%N] = 1%N) //.
rewrite [nat_of_ord _]/= binn !expr1 subnn !expr0 !mulr1 !mul1r.
by congr bs_prob.
Qed.

Lemma perms3 : permutations (iota 0 3) =
  [:: [:: 1; 0; 2]; [:: 0; 1; 2]; [:: 2; 0; 1]; [:: 0; 2; 1]; [:: 1; 2; 0]; [:: 2; 1; 0]]%N.
Proof. by vm_compute. Qed.

Lemma eye_row sigma (a : nat) : (a < 3)%N -> (nth 0 sigma a < 3)%N ->
  ent (permuted 3 U sigma) 0 a = (nth 0%N sigma a == 0%N)%:R.
Proof. by move=> al sl; rewrite ent_tab // ent_tab // eq_sym. Qed.

Lemma row_sum sigma (f : nat -> C) : sigma \in permutations (iota 0 3) ->
  \sum_(a < 3) ent (permuted 3 U sigma) 0 a * f a = f (index 0%N sigma).
Proof.
move=> hs.
have sl (a : nat) : (a < 3)%N -> (nth 0 sigma a < 3)%N.
  move=> al; have : nth 0%N sigma a \in iota 0 3.
    move: hs; rewrite mem_permutations => pe; rewrite -(perm_mem pe) mem_nth //.
    by rewrite (perm_size pe).
  by rewrite mem_iota.
under eq_bigr => a _ do rewrite (eye_row (ltn_ord a) (sl a (ltn_ord a))).
move: hs; rewrite perms3 !inE.
do 5?[case/orP]; move/eqP->;
  by rewrite !big_ord_recl big_ord0 /bump /= ?mul0r ?mul1r ?addr0 ?add0r.
Qed.

Lemma nsq_root x : nsq (cis x / (Num.sqrt 2%:R)%:C%C) = 2%:R^-1.
Proof.
have n2 : (2%:R : R) != 0 by rewrite pnatr_eq0.
have y2 : nsq ((Num.sqrt 2%:R : R)%:C%C : C) = 2%:R by rewrite /nsq /= expr0n addr0 sqr_sqrtr ?ler0n.
have y0 : (Num.sqrt 2%:R : R)%:C%C != 0 :> C by rewrite -nsq_eq0 y2.
by apply: (mulIf n2); rewrite mulVf // -[X in _ * X]y2 -nsqM divfK //; case: ok.
Qed.

Lemma code_prob sigma d : sigma \in permutations (iota 0 3) ->
  lstate_prob 1 3 1 (approx_net cis 3 (permuted 3 U sigma) 2 d) s t
  = if (index 0 sigma < 2)%N then 2%:R^-1 else 0.
Proof.
move=> hs; rewrite ls_both bs_both !approx_ent //.
have E j : \sum_(a < 3) ent (permuted 3 U sigma) 0 a * phase_of cis 2 d a * fourier_of cis 2 a j
  = phase_of cis 2 d (index 0%N sigma) * fourier_of cis 2 (index 0%N sigma) j.
  rewrite -(row_sum (fun a => phase_of cis 2 d a * fourier_of cis 2 a j) hs).
  by apply: eq_bigr => a _; rewrite mulrA.
rewrite !E !nsqM !(phase_nsq ok) !mul1r /fourier_of.
case: ltnP => il /=; last first.
  by rewrite (_ : (_ == 0%N) = false) ?nsq0 ?mulr0 ?mul0r //; apply/eqP; lia.
by rewrite !nsq_root; field.
Qed.

Lemma intended_prob sigma d : sigma \in permutations (iota 0 3) ->
  lstate_prob 1 3 1 (intended_net cis 3 1 (permuted 3 U sigma) d) s t = 0.
Proof.
move=> hs; rewrite ls_both bs_both !ent_tab //.
set i := index 0%N sigma.
have E (f g : nat -> C) : \sum_(a < 3) ent (permuted 3 U sigma) 0 a * f a * g a = f i * g i.
  by rewrite -(row_sum (fun a => f a * g a) hs); apply: eq_bigr => a _; rewrite mulrA.
set x := (X in _ * nsq X * _); set y := (X in _ * nsq X = _).
have -> : x = (if (i < 1)%N then 1 else cis d`_(i - 1)) * (i == 0%N)%:R.
  rewrite -(E (fun a => if (a < 1)%N then 1 else cis d`_(a - 1)) (fun a => (a == 0%N)%:R)).
  by apply: eq_bigr => a _; rewrite andbF.
have [i0|_] := i =P 0%N; last by rewrite mulr0 nsq0 mulr0 mul0r.
suff -> : y = 0 by rewrite nsq0 mulr0.
pose g (a : nat) : C := if (0 < a)%N then cis (((a - 1) * 0)%:R / 2%:R) / (Num.sqrt 2%:R)%:C%C else (a == 1%N)%:R.
transitivity ((if (i < 1)%N then 1 else cis d`_(i - 1)) * g i); last by rewrite /g i0 /= mulr0.
rewrite -(E (fun a => if (a < 1)%N then 1 else cis d`_(a - 1)) g).
by apply: eq_bigr => a _; rewrite andbT.
Qed.
End Wrong.

Lemma eye_unitary (R : rcfType) n : unitary n (np_eye (ComplexField.complex_numFieldType R) n).
Proof.
split; first exact: rect_tab.
move=> i i' il il'; rewrite /ortho_cols (bigD1 (Ordinal il)) //= big1 => [|j ne].
  by rewrite !ent_tab // eqxx rmorph1 mul1r addr0.
by rewrite ent_tab // -[_ == i]/(j == Ordinal il) (negPf ne) rmorph0 mul0r.
Qed.
