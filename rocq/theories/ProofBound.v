(* The minimal number of samples. *)
From Coq Require Import Reals ZArith Lra Lia.
From Verif Require Import ModelBound.
Local Open Scope R_scope.

Lemma ln2_pos : 0 < ln 2. Proof. rewrite <- ln_1; apply ln_increasing; lra. Qed.

Lemma exponent_ge0 k p : (0 <= k)%Z -> 0 < p <= 1 -> 0 <= - ln p + IZR k * ln 2.
Proof.
intros k0 [p0 p1].
assert (ln p <= 0).
  { destruct p1 as [p1 | ->]; [|rewrite ln_1; lra]. rewrite <- ln_1. left; apply ln_increasing; lra. }
assert (0 <= IZR k * ln 2) by (apply Rmult_le_pos; [now apply IZR_le | left; apply ln2_pos]).
lra.
Qed.

Lemma minimalE k p d : (0 <= k)%Z -> 0 < p <= 1 -> 0 < d ->
  let N := minimal_samples k p d in
  (1 <= N)%Z /\ tv_error_bound k N p < d /\
  forall N', (1 <= N' < N)%Z -> d <= tv_error_bound k N' p.
Proof.
intros k0 p01 d0 N.
pose (a := - ln p + IZR k * ln 2).
assert (a0 : 0 <= a) by now apply exponent_ge0.
assert (dd : 0 < 2 * d ^ 2) by nra.
pose (x := a / (2 * d ^ 2)).
assert (x0 : 0 <= x) by (apply Rmult_le_pos; [exact a0 | left; now apply Rinv_0_lt_compat]).
assert (eN : N = (Int_part x + 1)%Z).
  { unfold N, minimal_samples. rewrite (Rmult_comm (ln 2)). fold a. fold x.
    unfold py_trunc. destruct (Rle_dec 0 x); [reflexivity | contradiction]. }
destruct (base_Int_part x) as [lo hi].
assert (I0 : (0 <= Int_part x)%Z).
  { assert (-1 < IZR (Int_part x)) by lra. change (-1) with (IZR (-1)) in H. apply lt_IZR in H. lia. }
assert (ax : a = x * (2 * d ^ 2)) by (unfold x; field; lra).
split; [lia|split].
- assert (xN : x < IZR N) by (rewrite eN, plus_IZR; lra).
  assert (N0 : 0 < IZR N) by lra.
  unfold tv_error_bound. fold a.
  rewrite <- (sqrt_pow2 d) by lra.
  apply sqrt_lt_1_alt. split.
  + apply Rmult_le_pos; [exact a0 | left; apply Rinv_0_lt_compat; lra].
  + apply Rmult_lt_reg_r with (2 * IZR N); [lra|].
    unfold Rdiv. rewrite Rmult_assoc, Rinv_l by lra. rewrite Rmult_1_r, ax. nra.
- intros N' [l1 l2].
  assert (N1 : 1 <= IZR N') by now apply IZR_le.
  assert (N2 : IZR N' <= x).
  { apply Rle_trans with (IZR (Int_part x)); [|exact lo]. apply IZR_le. lia. }
  unfold tv_error_bound. fold a.
  rewrite <- (sqrt_pow2 d) at 1 by lra.
  apply sqrt_le_1_alt.
  apply Rmult_le_reg_r with (2 * IZR N'); [lra|].
  unfold Rdiv. rewrite Rmult_assoc, Rinv_l by lra. rewrite Rmult_1_r, ax. nra.
Qed.

(* more samples, more outcomes, a smaller probability of error *)
Lemma bound_mono k k' N N' p p' : (0 <= k <= k')%Z -> (1 <= N' <= N)%Z -> 0 < p' <= p -> p <= 1 ->
  tv_error_bound k N p <= tv_error_bound k' N' p'.
Proof.
intros [k0 kk] [N0 NN] [p0 pp] p1.
assert (k' >= 0)%Z by lia.
assert (a0 : 0 <= - ln p + IZR k * ln 2) by (apply exponent_ge0; lra || lia).
assert (l : ln p' <= ln p) by (destruct pp as [pp| ->]; [left; now apply ln_increasing | lra]).
assert (m : IZR k * ln 2 <= IZR k' * ln 2) by (apply Rmult_le_compat_r; [left; apply ln2_pos | now apply IZR_le]).
assert (n0 : 1 <= IZR N') by now apply IZR_le.
assert (nn : IZR N' <= IZR N) by now apply IZR_le.
unfold tv_error_bound. apply sqrt_le_1_alt.
apply Rmult_le_compat; [exact a0| |lra|].
- left; apply Rinv_0_lt_compat; lra.
- apply Rinv_le_contravar; lra.
Qed.

Lemma exp_times n x : exp x ^ n = exp (INR n * x).
Proof.
induction n as [|n IH]; [simpl; rewrite Rmult_0_l, exp_0; reflexivity|].
rewrite S_INR, Rmult_plus_distr_r, exp_plus, <- IH, Rmult_1_l. simpl; ring.
Qed.

Lemma bound_value k N p : (0 < N)%nat -> 0 < p -> p <= 1 ->
  2 ^ k * exp (- (2 * tv_error_bound (Z.of_nat k) (Z.of_nat N) p ^ 2)) ^ N = p.
Proof.
intros N0 p0 p1.
assert (a0 := exponent_ge0 (Z.of_nat k) p (Zle_0_nat k) (conj p0 p1)).
assert (NR : 0 < INR N) by now apply lt_0_INR.
unfold tv_error_bound. rewrite <- !INR_IZR_INZ in *. rewrite pow2_sqrt.
2: { apply Rmult_le_pos; [exact a0 | left; apply Rinv_0_lt_compat; lra]. }
rewrite exp_times.
replace (INR N * - (2 * ((- ln p + INR k * ln 2) / (2 * INR N)))) with (ln p + INR k * - ln 2) by (field; lra).
rewrite exp_plus, <- exp_times, exp_Ropp, !exp_ln by lra.
rewrite pow_inv. field. apply pow_nonzero; lra.
Qed.

(* any arguments: the quotient is cut off towards zero *)
Lemma py_truncE x : Rabs (IZR (py_trunc x)) <= Rabs x < Rabs (IZR (py_trunc x)) + 1 /\ 0 <= IZR (py_trunc x) * x.
Proof.
assert (H : forall y, 0 <= y -> 0 <= IZR (Int_part y) <= y /\ y < IZR (Int_part y) + 1).
  { intros y y0. destruct (base_Int_part y) as [lo hi].
    assert (-1 < IZR (Int_part y)) as h by lra. change (-1) with (IZR (-1)) in h. apply lt_IZR in h.
    assert (0 <= IZR (Int_part y)) by (apply IZR_le; lia). lra. }
unfold py_trunc. destruct (Rle_dec 0 x) as [x0|x0].
- destruct (H x x0) as [[a b] c]. rewrite !Rabs_right by lra. split; [lra|nra].
- destruct (H (- x)) as [[a b] c]; [lra|]. rewrite opp_IZR, Rabs_Ropp, (Rabs_right (IZR _)) by lra.
  rewrite (Rabs_left x) by lra. split; [lra|nra].
Qed.

Lemma minimal_any k p d :
  let x := (- ln p + IZR k * ln 2) / (2 * d ^ 2) in
  let n := IZR (minimal_samples k p d - 1) in
  Rabs n <= Rabs x /\ Rabs x < Rabs n + 1 /\ 0 <= n * x.
Proof.
intros x n. unfold n, minimal_samples. rewrite (Rmult_comm (ln 2)). fold x.
replace (py_trunc x + 1 - 1)%Z with (py_trunc x) by lia. destruct (py_truncE x) as [[? ?] ?]; auto.
Qed.
