(* How much the law of several samples changes with the law of one. *)
From mathcomp Require Import all_ssreflect all_algebra.
From mathcomp Require Import ring zify.
From Verif Require Import Base SpecProb ProbMath ProofGccB2.
Set Implicit Arguments.
Unset Strict Implicit.
Unset Printing Implicit Defensive.
Import Order.TTheory GRing.Theory Num.Theory.
Local Open Scope ring_scope.

Section TV.
Variables (R : realFieldType) (T : eqType) (S : seq T) (P Q : T -> R) (d : R).
Hypotheses (P0 : {in S, forall t, 0 <= P t}) (Q0 : {in S, forall t, 0 <= Q t})
  (P1 : \sum_(t <- S) P t = 1) (Q1 : \sum_(t <- S) Q t = 1)
  (tv : \sum_(t <- S) `|P t - Q t| <= 2%:R * d).

Lemma iid_exp01 (W : T -> R) k f : {in S, forall t, 0 <= W t} -> \sum_(t <- S) W t = 1 ->
  (forall L, 0 <= f L <= 1) -> 0 <= iid_exp S W k f <= 1.
Proof.
move=> W0 W1; elim: k f => [|k IH] f f01 //=; apply/andP; split.
  rewrite big_seq; apply: sumr_ge0 => t tS; rewrite mulr_ge0 ?W0 //.
  by case/andP: (IH (fun L => f (t :: L)) (fun L => f01 (t :: L))).
rewrite -W1 big_seq [X in _ <= X]big_seq; apply: ler_sum => t tS; rewrite -[X in _ <= X]mulr1 ler_wpmul2l ?W0 //.
by case/andP: (IH (fun L => f (t :: L)) (fun L => f01 (t :: L))).
Qed.

Lemma tv_event (A : T -> R) : {in S, forall t, 0 <= A t <= 1} -> `|\sum_(t <- S) (P t - Q t) * A t| <= d.
Proof.
move=> A01.
have -> : \sum_(t <- S) (P t - Q t) * A t = \sum_(t <- S) (P t - Q t) * (A t - 2%:R^-1).
  under [RHS]eq_bigr => t _ do rewrite mulrBr.
  by rewrite sumrB -[X in _ - X]mulr_suml sumrB P1 Q1 subrr mul0r subr0.
have h : 0 < 2%:R :> R by rewrite ltr0n.
rewrite -(ler_pmul2l h); apply: le_trans tv.
apply: (@le_trans _ _ (2%:R * \sum_(t <- S) `|P t - Q t| * 2%:R^-1)); last by rewrite -mulr_suml mulrCA divff ?mulr1 // gt_eqF.
rewrite ler_pmul2l //; apply: le_trans (ler_norm_sum _ _ _) _; rewrite big_seq [X in _ <= X]big_seq; apply: ler_sum => t tS.
rewrite normrM ler_wpmul2l // ler_norml; have /andP[a b] := A01 t tS.
rewrite ler_subr_addr addNr a ler_subl_addr.
have -> : 2%:R^-1 + 2%:R^-1 = 1 :> R by field.
by [].
Qed.

Lemma iid_exp_tv k f : (forall L, 0 <= f L <= 1) -> `|iid_exp S P k f - iid_exp S Q k f| <= k%:R * d.
Proof.
elim: k f => [|k IH] f f01 /=; first by rewrite subrr normr0 mul0r.
have -> : \sum_(t <- S) P t * iid_exp S P k (fun L => f (t :: L)) - \sum_(t <- S) Q t * iid_exp S Q k (fun L => f (t :: L)) =
  \sum_(t <- S) (P t - Q t) * iid_exp S P k (fun L => f (t :: L)) +
  \sum_(t <- S) Q t * (iid_exp S P k (fun L => f (t :: L)) - iid_exp S Q k (fun L => f (t :: L))).
  rewrite -sumrB -big_split; apply: eq_bigr => t _ /=.
  by move: (iid_exp _ _ _ _) (iid_exp _ _ _ _) => a b; ring.
apply: le_trans (ler_norm_add _ _) _; rewrite mulrS mulrDl mul1r ler_add //.
  by apply: tv_event => t tS; apply: iid_exp01.
apply: le_trans (ler_norm_sum _ _ _) _; rewrite -[X in _ <= X]mul1r -[X in _ <= X * _]Q1 mulr_suml big_seq [X in _ <= X]big_seq; apply: ler_sum => t tS.
by rewrite normrM ger0_norm ?Q0 // ler_wpmul2l ?Q0 // IH.
Qed.
End TV.
