(* Networks side by side: probabilities. *)
From mathcomp Require Import all_ssreflect all_algebra complex.
From mathcomp Require Import ring zify.
From Verif Require Import Base SpecStates Combi SpecPerm PermMath SpecBS BsMath BsComb BsNorm SpecSym BsSym.
From Verif Require Import ProofNet4 ProofSym1 ProofSym3 ProofSym4.
Set Implicit Arguments.
Unset Strict Implicit.
Unset Printing Implicit Defensive.
Import GRing.Theory Num.Theory.
Local Open Scope ring_scope.

Section Blocks.
Variable R : rcfType.
Notation C := R[i].
Implicit Types (A B : seq (seq C)) (s t : seq nat).

Lemma bs_prob_blocks m1 m2 A B s1 s2 t1 t2 : size s1 = m1 -> size s2 = m2 -> size t1 = m1 -> size t2 = m2 ->
  (sumn s1 + sumn s2 = sumn t1 + sumn t2)%N ->
  bs_prob (side_by_side m1 m2 A B) (s1 ++ s2) (t1 ++ t2) =
  if sumn s1 == sumn t1 then bs_prob A s1 t1 * bs_prob B s2 t2 else 0.
Proof.
move=> z1 z2 y1 y2 e; rewrite /bs_prob bs_permanent_blocks // !factprod_cat; case: ifP => _; last by rewrite nsq0 mul0r.
rewrite nsqM !natrM; move: (factprod_neq0 R s1) (factprod_neq0 R s2) (factprod_neq0 R t1) (factprod_neq0 R t2).
move: ((factprod s1)%:R : R) ((factprod s2)%:R : R) ((factprod t1)%:R : R) ((factprod t2)%:R : R) => a b c d a0 b0 c0 d0.
by field; rewrite d0 c0 b0 a0.
Qed.

Lemma uniform_lossE A s eta t : (sumn t <= sumn s)%N -> uniform_loss_prob A s eta t =
  eta ^+ sumn t * (1 - eta) ^+ (sumn s - sumn t) * \sum_(T <- subs s | sumn T == sumn t) (ways s T)%:R * bs_prob A T t.
Proof.
move=> le; rewrite /uniform_loss_prob /fixed_loss_prob /binomial_weight.
have : 'C(sumn s, sumn t)%:R != 0 :> R by rewrite pnatr_eq0 -lt0n bin_gt0.
move: ('C(_, _)%:R : R) (eta ^+ _) ((1 - eta) ^+ _) (\sum_(T <- _ | _) _) => a b c X a0.
by field.
Qed.

Lemma big_subs_cat s1 s2 (G : seq nat -> R) :
  \sum_(T <- subs (s1 ++ s2)) G T = \sum_(T1 <- subs s1) \sum_(T2 <- subs s2) G (T1 ++ T2).
Proof.
elim: s1 G => [|x s1 IH] G; first by rewrite /= big_seq1.
rewrite cat_cons !big_subs_cons; apply: eq_bigr => a _.
by rewrite (IH (fun T => G (nat_of_ord a :: T))).
Qed.

Lemma ways_cat s1 s2 T1 T2 : size T1 = size s1 -> ways (s1 ++ s2) (T1 ++ T2) = (ways s1 T1 * ways s2 T2)%N.
Proof.
elim: s1 T1 => [|x s1 IH] [|a T1] //=; first by move=> _; rewrite {2}/ways big_ord0 mul1n.
by move=> [z]; rewrite !ways_cons IH // mulnA.
Qed.

Lemma uniform_blocks m1 m2 A B s1 s2 t1 t2 eta : size s1 = m1 -> size s2 = m2 -> size t1 = m1 -> size t2 = m2 ->
  (sumn t1 <= sumn s1)%N -> (sumn t2 <= sumn s2)%N ->
  uniform_loss_prob (side_by_side m1 m2 A B) (s1 ++ s2) eta (t1 ++ t2) =
  uniform_loss_prob A s1 eta t1 * uniform_loss_prob B s2 eta t2.
Proof.
move=> z1 z2 y1 y2 l1 l2; rewrite !uniform_lossE ?sumn_cat ?leq_add //.
have -> : (sumn s1 + sumn s2 - (sumn t1 + sumn t2) = (sumn s1 - sumn t1) + (sumn s2 - sumn t2))%N by lia.
transitivity (eta ^+ sumn t1 * (1 - eta) ^+ (sumn s1 - sumn t1) * (eta ^+ sumn t2 * (1 - eta) ^+ (sumn s2 - sumn t2)) *
  \sum_(T1 <- subs s1 | sumn T1 == sumn t1) \sum_(T2 <- subs s2 | sumn T2 == sumn t2)
    ((ways s1 T1)%:R * bs_prob A T1 t1) * ((ways s2 T2)%:R * bs_prob B T2 t2)); last first.
  under eq_bigr do rewrite -mulr_sumr; rewrite -mulr_suml.
  move: (\sum_(T <- _ | _) _) (\sum_(T <- _ | _) _) (eta ^+ _) (eta ^+ _) ((1 - eta) ^+ _) ((1 - eta) ^+ _) => X Y a b c d.
  by ring.
rewrite !exprD; have sw (a b c d : R) : a * b * (c * d) = a * c * (b * d) by ring.
rewrite sw; congr (_ * _); rewrite big_mkcond big_subs_cat /= [RHS]big_mkcond /=.
apply: eq_big_seq => T1; rewrite mem_subs => /substateP[w1 _]; case: eqP => e1; last first.
  rewrite big1_seq // => T2; rewrite mem_subs => /andP[_ /substateP[w2 _]]; case: eqP => // e.
  rewrite bs_prob_blocks ?w1 ?w2 //; last by move: e; rewrite !sumn_cat.
  by move/eqP/negbTE: e1 => ->; rewrite mulr0.
rewrite [RHS]big_mkcond /=; apply: eq_big_seq => T2; rewrite mem_subs => /substateP[w2 _].
rewrite !sumn_cat e1 eqn_add2l; case: eqP => e2 //.
rewrite bs_prob_blocks ?w1 ?w2 ?e1 ?e2 // eqxx ways_cat // natrM.
exact: sw.
Qed.

End Blocks.
