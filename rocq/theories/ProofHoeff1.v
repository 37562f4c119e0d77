(* Hoeffding's lemma for one draw of 0 or 1. *)
From Coq Require Import Reals Lra.
From Coquelicot Require Import Coquelicot.
Local Open Scope R_scope.

Lemma grows (f f' : R -> R) : 0 <= f 0 -> (forall x, is_derive f x (f' x)) ->
  (forall x, 0 <= x -> 0 <= f' x) -> forall x, 0 <= x -> 0 <= f x.
Proof.
intros f0 d pos x [x0 | <-]; [|exact f0].
destruct (MVT_cor2 f f' 0 x x0) as [c [e [c0 cx]]].
  { intros c _. apply is_derive_Reals, d. }
assert (0 <= f' c) by (apply pos; lra).
assert (0 <= f' c * (x - 0)) by (apply Rmult_le_pos; lra).
lra.
Qed.

Section Bernoulli.
Variable mu : R.
Hypothesis mu01 : 0 <= mu <= 1.

Lemma mix_pos x : 0 < 1 - mu + mu * exp x.
Proof.
assert (e := exp_pos x). destruct (Rle_lt_dec mu (1 / 2)) as [h | h].
- assert (0 <= mu * exp x) by (apply Rmult_le_pos; lra). lra.
- assert (0 < mu * exp x) by (apply Rmult_lt_0_compat; lra). lra.
Qed.

Lemma mgf_log x : 0 <= x -> 0 <= x ^ 2 / 8 + x * mu - ln (1 - mu + mu * exp x).
Proof.
apply (grows (fun x => x ^ 2 / 8 + x * mu - ln (1 - mu + mu * exp x))
             (fun x => x / 4 + mu - mu * exp x / (1 - mu + mu * exp x))).
- rewrite exp_0. replace (1 - mu + mu * 1) with 1 by ring. rewrite ln_1. lra.
- intro y. assert (h := mix_pos y). auto_derive; [exact h | field; lra].
- apply (grows (fun x => x / 4 + mu - mu * exp x / (1 - mu + mu * exp x))
           (fun x => 1 / 4 - (mu * exp x) * (1 - mu) / (1 - mu + mu * exp x) ^ 2)).
  + rewrite exp_0. right; field; lra.
  + intro y. assert (h := mix_pos y). auto_derive; [lra | field; lra].
  + intros y _. assert (h := mix_pos y).
    assert (s : 0 < (1 - mu + mu * exp y) ^ 2) by (apply pow_lt; exact h).
    apply Rmult_le_reg_r with ((1 - mu + mu * exp y) ^ 2); [exact s|].
    replace ((1 / 4 - mu * exp y * (1 - mu) / (1 - mu + mu * exp y) ^ 2) * (1 - mu + mu * exp y) ^ 2)
      with ((1 - mu + mu * exp y) ^ 2 / 4 - mu * exp y * (1 - mu)) by (field; lra).
    assert (q := pow2_ge_0 (1 - mu - mu * exp y)). nra.
Qed.

Lemma mgf x : 0 <= x -> 1 - mu + mu * exp x <= exp (x * mu + x ^ 2 / 8).
Proof.
intro x0. assert (h := mix_pos x). assert (l := mgf_log x x0).
rewrite <- (exp_ln (1 - mu + mu * exp x)) by exact h.
destruct (Rle_lt_dec (ln (1 - mu + mu * exp x)) (x * mu + x ^ 2 / 8)) as [[le | ->] | lt].
- left; now apply exp_increasing.
- right; reflexivity.
- lra.
Qed.
End Bernoulli.
