(* The operations built from a rounding of real numbers are accurate. *)
From mathcomp Require Import all_ssreflect all_algebra complex.
From mathcomp Require Import ring zify.
From Verif Require Import Base ModelDist ModelFloat SpecFloat SpecFloatGcc ModelRound SpecRound ProofFloat ProofFloatSub ProofFloatDist.
Set Implicit Arguments.
Unset Strict Implicit.
Unset Printing Implicit Defensive.
Import Order.TTheory GRing.Theory Num.Theory.
Local Open Scope ring_scope.

(* products and sums in any order *)
Section Trees.
Variable F : numFieldType.
Variables (u : F) (mul add : F -> F -> F).
Hypothesis u0 : 0 <= u.
Hypothesis acc_m : forall x y, `|mul x y - x * y| <= u * `|x * y|.
Hypothesis acc_a : forall x y, `|add x y - (x + y)| <= u * `|x + y|.

Lemma leaves_gt0 t : (0 < size (leaves t))%N.
Proof. by elim: t => [i|a ha b hb] //=; rewrite size_cat addn_gt0 ha. Qed.

Lemma tree_prod x t :
  near u (size (leaves t)).-1 (\prod_(i <- leaves t) x i) (\prod_(i <- leaves t) `|x i|) (eval_tree mul x t).
Proof.
elim: t => [i|a ha b hb] /=; first by rewrite !big_seq1; apply: near_exact.
rewrite !big_cat size_cat /=.
have := near_round1 u0 (near_times ha hb) (acc_m _ _).
apply: near_k => //; have := leaves_gt0 a; have := leaves_gt0 b; lia.
Qed.

Lemma tree_sum x t :
  near u (size (leaves t)).-1 (\sum_(i <- leaves t) x i) (\sum_(i <- leaves t) `|x i|) (eval_tree add x t).
Proof.
elim: t => [i|a ha b hb] /=; first by rewrite !big_seq1; apply: near_exact.
rewrite !big_cat size_cat /=.
have a0 := leaves_gt0 a; have b0 := leaves_gt0 b.
have [ha' hb'] : near u (size (leaves a) + size (leaves b)).-2 (\sum_(i <- leaves a) x i) (\sum_(i <- leaves a) `|x i|) (eval_tree add x a)
   /\ near u (size (leaves a) + size (leaves b)).-2 (\sum_(i <- leaves b) x i) (\sum_(i <- leaves b) `|x i|) (eval_tree add x b).
  by split; [apply: near_k ha|apply: near_k hb] => //; lia.
have := near_round1 u0 (near_plus ha' hb') (acc_a _ _).
by apply: near_k => //; lia.
Qed.

Lemma prod_const (x : F) (l : seq nat) : \prod_(i <- l) x = x ^+ size l.
Proof. by elim: l => [|y l IH]; rewrite ?big_nil ?big_cons //= exprS IH. Qed.

Lemma order_size O n : order_ok O -> (0 < n)%N -> size (leaves (O n)) = n.
Proof. by move=> oO n0; rewrite (perm_size (oO n n0)) size_iota. Qed.

Lemma tree_pow O x e : order_ok O -> (0 < e)%N ->
  `|eval_tree mul (fun=> x) (O e) - x ^+ e| <= ((1 + u) ^+ e - 1) * `|x ^+ e|.
Proof.
move=> oO e_gt0; have := tree_prod (fun=> x) (O e).
rewrite !prod_const order_size // -normrX => H.
by have [_] : near u e (x ^+ e) `|x ^+ e| (eval_tree mul (fun=> x) (O e)) by apply: near_k H => //; lia.
Qed.

Lemma tree_sum_list O l : order_ok O ->
  `|(if l is [::] then 0 else eval_tree add (fun i => l`_i) (O (size l))) - \sum_(x <- l) x|
    <= ((1 + u) ^+ size l - 1) * \sum_(x <- l) `|x|.
Proof.
move=> oO; case E: l => [|y l']; first by rewrite !big_nil subrr normr0 mulr0.
rewrite -E; have n0 : (0 < size l)%N by rewrite E.
have := tree_sum (fun i => l`_i) (O (size l)).
have E1 (f : F -> F) : \sum_(i <- iota 0 (size l)) f l`_i = \sum_(x <- l) f x by rewrite (big_nth 0) /index_iota subn0.
rewrite !(perm_big _ (oO _ n0)) /= order_size // (E1 id) (E1 (fun x => `|x|)) => H.
by have [_] := @near_k _ _ u0 _ (size l) _ _ _ (leq_pred _) H; rewrite E.
Qed.

End Trees.
