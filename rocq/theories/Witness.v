(* Concrete data used by the examples beneath the property theorems. *)
From mathcomp Require Import all_ssreflect all_fingroup all_algebra complex ring zify.
From Verif Require Import Base SpecStates Combi SpecPerm PermMath SpecBS BsMath BsNorm ProofPerm5 ModelPerm LemPerm ProofDist1.
Set Implicit Arguments.
Unset Strict Implicit.
Unset Printing Implicit Defensive.
Import GRing.Theory Num.Theory.
Local Open Scope ring_scope.

Section Witness.
Variable R : rcfType.
Notation CF := (ComplexField.complex_numFieldType R).

(* a beam splitter with real rational entries *)
Definition splitter : seq (seq CF) :=
  [:: [:: 3%:R / 5%:R; 4%:R / 5%:R]; [:: - (4%:R / 5%:R); 3%:R / 5%:R]].

Lemma splitter_real : splitter =
  [:: [:: (3%:R / 5%:R)%:C%C; (4%:R / 5%:R)%:C%C]; [:: (- (4%:R / 5%:R))%:C%C; (3%:R / 5%:R)%:C%C]].
Proof.
have rc n : (n%:R : CF) = (n%:R)%:C%C by rewrite (rmorph_nat (ComplexField.real_complex_rmorphism R)).
have rd a b : (a / b)%:C%C = a%:C%C / b%:C%C :> CF by rewrite (fmorph_div (ComplexField.real_complex_rmorphism R)).
have rn a : (- a)%:C%C = - a%:C%C :> CF by rewrite (rmorphN (ComplexField.real_complex_rmorphism R)).
by rewrite /splitter rn !rd -!rc.
Qed.

Lemma splitter_unitary : unitary 2 splitter.
Proof.
split; first by rewrite /is_square /=.
have n5 : (5%:R : R) != 0 by rewrite pnatr_eq0.
have e : (3%:R / 5%:R) ^+ 2 + (4%:R / 5%:R) ^+ 2 = 1 :> R.
  by field.
rewrite splitter_real; move: (3%:R / 5%:R) (4%:R / 5%:R) e => {n5} a b e i i' il i'l; rewrite /ortho_cols !big_ord_recl big_ord0.
case: i il => [|[|//]] _; case: i' i'l => [|[|//]] _; rewrite /ent /=; simpc; apply/eqP;
  rewrite eq_complex /=; apply/andP; split; apply/eqP; rewrite -?e; ring.
Qed.

Lemma reflected_gray_ok n : gray_ok reflected_gray n.
Proof. by move=> k _; exact: C15_reflected_gray_code_lemma. Qed.

(* two particles, one per mode: probability of seeing one per mode *)
Lemma splitter_coincidence : bs_prob splitter [:: 1; 1]%N [:: 1; 1]%N = 49%:R / 625%:R.
Proof.
have n5 : (5%:R : R) != 0 by rewrite pnatr_eq0.
rewrite /bs_prob; have -> : bs_permanent splitter [:: 1; 1]%N [:: 1; 1]%N = (- (7%:R / 25%:R))%:C%C.
  have s1 (i : nat) : (i < 2)%N -> bs_permanent splitter (incr [:: 0; 0]%N i) [:: 1; 0]%N = ent splitter 0 i.
    move=> il; have -> : [:: 1; 0]%N = incr [:: 0; 0]%N 0 by rewrite incrE.
    rewrite bs_permanent_incr ?sumn_incr // size_incr // !big_ord_recl big_ord0.
    have nE (j : nat) : nth 0%N (incr [:: 0; 0]%N i) j = (j == i)%N :> nat.
      by rewrite nth_incr; case: (j == i); case: (i) => [|[|[|?]]]; case: (j) => [|[|[|?]]].
    rewrite !nE; case: i il {nE} => [|[|//]] _; rewrite ?eqxx ?mul0r ?mul1r ?add0r ?addr0;
      by rewrite bs_permanent_vac ?mulr1 // incrE decrE.
  transitivity (bs_permanent splitter [:: 1; 1]%N (incr [:: 1; 0]%N 1)); first by rewrite incrE.
  rewrite bs_permanent_incr // !big_ord_recl big_ord0 !mul1r addr0.
  have -> : decr [:: 1; 1]%N (@ord0 1) = incr [:: 0; 0]%N 1 by rewrite incrE decrE.
  have -> : decr [:: 1; 1]%N (lift ord0 (@ord0 0)) = incr [:: 0; 0]%N 0 by rewrite incrE decrE.
  rewrite !s1 //.
  have -> : - (7%:R / 25%:R) = (3%:R / 5%:R) ^+ 2 - (4%:R / 5%:R) ^+ 2 :> R by field.
  rewrite splitter_real; move: (3%:R / 5%:R) (4%:R / 5%:R) => {n5} a b.
  rewrite /ent /=; simpc.
  by apply/eqP; rewrite eq_complex /=; apply/andP; split; apply/eqP => //; ring.
have -> : factprod [:: 1; 1]%N = 1%N by rewrite /factprod !big_cons big_nil.
by rewrite /nsq [complex.Re _]/= [complex.Im _]/=; field.
Qed.

End Witness.
