(* exp(2 pi i x) over the real numbers of the standard library. *)
From Coq Require Import Reals Lra.
From mathcomp Require Import all_ssreflect all_algebra complex.
From Verif Require Import Base SpecPerm SpecBS SpecNet RealInst.
Set Implicit Arguments.
Unset Strict Implicit.
Unset Printing Implicit Defensive.
Import GRing.Theory Num.Theory.

Definition real_cis (x : R_rcfType) : (R_rcfType)[i]%C :=
  Complex (cos (Rmult (Rmult 2 PI) x) : R_rcfType) (sin (Rmult (Rmult 2 PI) x) : R_rcfType).

Lemma natR (n : nat) : (n%:R : R_rcfType)%R = INR n.
Proof. by elim: n => [|n IH] //; rewrite mulrSr IH S_INR. Qed.

Lemma RltP (x y : R_rcfType) : (x < y)%R -> Rlt x y.
Proof. by case/andP=> /eqP h /RlebP h2; lra. Qed.

Lemma real_cisD x y : real_cis (x + y)%R = (real_cis x * real_cis y)%R.
Proof.
rewrite /real_cis; apply/eqP; rewrite eq_complex /=.
have -> : Rmult (Rmult 2 PI) (x + y)%R = Rplus (Rmult (Rmult 2 PI) x) (Rmult (Rmult 2 PI) y).
  by rewrite Rmult_plus_distr_l.
rewrite cos_plus sin_plus; apply/andP; split; apply/eqP => //.
by rewrite [LHS]Rplus_comm.
Qed.

Lemma real_cis_unit x : nsq (real_cis x) = 1%R.
Proof. by rewrite /nsq /=; have := sin2_cos2 (Rmult (Rmult 2 PI) x); rewrite /Rsqr => h; rewrite !expr2 addrC; exact: h. Qed.

Lemma real_cis1 : real_cis 1%R = 1%R.
Proof.
rewrite /real_cis; apply/eqP; rewrite eq_complex /=.
have -> : Rmult (Rmult 2 PI) 1%R = Rmult 2 PI by rewrite Rmult_1_r.
by rewrite cos_2PI sin_2PI !eqxx.
Qed.

Lemma real_cis0 : real_cis 0%R = 1%R.
Proof.
rewrite /real_cis; apply/eqP; rewrite eq_complex /=.
have -> : Rmult (Rmult 2 PI) 0%R = 0%R by rewrite Rmult_0_r.
by rewrite cos_0 sin_0 !eqxx.
Qed.

Lemma real_cis_nat k : real_cis k%:R%R = 1%R.
Proof. by elim: k => [|k IH]; rewrite ?real_cis0 // mulrSr real_cisD IH real_cis1 mulr1. Qed.

Lemma real_cis_inside x : Rlt 0 x -> Rlt x 1 -> real_cis x <> 1%R.
Proof.
move=> x0 x1 e; have {}e : cos (Rmult (Rmult 2 PI) x) = IZR 1 by case: e.
have h : Rmult (Rmult 2 PI) x = Rmult 2 (Rmult PI x) by lra.
rewrite h cos_2a_sin in e; have pi := PI_RGT_0.
have s0 : Rlt 0 (sin (Rmult PI x)) by apply: sin_gt_0; nra.
have := Rmult_lt_0_compat _ _ s0 s0; move: e s0; move: (sin _) => s e s0; nra.
Qed.

Lemma real_cis_ok : cis_ok real_cis.
Proof.
split; [exact: real_cisD|exact: real_cis_unit|].
move=> n k n0; have nR : (n%:R : R_rcfType)%R != 0%R by rewrite pnatr_eq0 -lt0n.
have split_ : (k%:R / n%:R : R_rcfType)%R = ((k %/ n)%:R + (k %% n)%:R / n%:R)%R.
  by rewrite {1}(divn_eq k n) natrD natrM mulrDl mulfK.
rewrite split_ real_cisD real_cis_nat mul1r; split; last first.
  by rewrite /dvdn => /eqP ->; rewrite mul0r real_cis0.
move=> e; apply/negPn/negP; rewrite /dvdn -lt0n => r0.
have lt : (k %% n < n)%N by rewrite ltn_mod.
apply: real_cis_inside e; apply: RltP.
  by rewrite -[IZR 0]/(0 : R_rcfType)%R divr_gt0 ?ltr0n.
by rewrite -[IZR 1]/(1 : R_rcfType)%R ltr_pdivr_mulr ?ltr0n // mul1r ltr_nat.
Qed.
