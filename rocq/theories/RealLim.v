(* exp(2 pi i x) over the real numbers of the standard library satisfies the
   conditions of the theorems on random phases. *)
From Coq Require Import Reals Lra.
From mathcomp Require Import all_ssreflect all_algebra complex.
From Verif Require Import Base SpecPerm SpecBS SpecNet SpecLim RealInst RealCis.
Set Implicit Arguments.
Unset Strict Implicit.
Unset Printing Implicit Defensive.
Import GRing.Theory Num.Theory.

Lemma sin_sqr_pos z : Rlt 0 z -> Rle (Rmult (sin z) (sin z)) (Rmult z z).
Proof.
move=> z0; have h := sin_lt_x z z0; case: (Rle_lt_dec z PI) => le.
  have s0 : Rle 0 (sin z) by apply: sin_ge_0; lra.
  nra.
have p := PI2_1; have [l u] := SIN_bound z; nra.
Qed.

Lemma sin_sqr z : Rle (Rmult (sin z) (sin z)) (Rmult z z).
Proof.
case: (Rtotal_order z 0) => [h|[->|h]]; last exact: sin_sqr_pos.
  have := @sin_sqr_pos (Ropp z); rewrite sin_neg => H; have := H (Ropp_0_gt_lt_contravar _ h); nra.
rewrite sin_0; lra.
Qed.

Lemma cos_sin_diff a b :
  Rle (Rplus (Rmult (Rminus (cos a) (cos b)) (Rminus (cos a) (cos b))) (Rmult (Rminus (sin a) (sin b)) (Rminus (sin a) (sin b))))
      (Rmult (Rminus a b) (Rminus a b)).
Proof.
pose c := Rdiv (Rplus a b) 2; pose h := Rdiv (Rminus a b) 2.
have -> : a = Rplus c h by rewrite /c /h; lra.
have -> : b = Rminus c h by rewrite /c /h; lra.
rewrite cos_plus sin_plus cos_minus sin_minus.
have e := sin2_cos2 c; rewrite /Rsqr in e; have s := sin_sqr h.
clearbody c h; move: (sin c) (cos c) (sin h) (cos h) e s => x y u v e s.
have -> : Rplus (Rmult (Rminus (Rminus (Rmult y v) (Rmult x u)) (Rplus (Rmult y v) (Rmult x u))) (Rminus (Rminus (Rmult y v) (Rmult x u)) (Rplus (Rmult y v) (Rmult x u))))
  (Rmult (Rminus (Rplus (Rmult x v) (Rmult y u)) (Rminus (Rmult x v) (Rmult y u))) (Rminus (Rplus (Rmult x v) (Rmult y u)) (Rminus (Rmult x v) (Rmult y u)))) =
  Rmult (Rmult 4 (Rmult u u)) (Rplus (Rmult x x) (Rmult y y)) by ring.
rewrite e; lra.
Qed.

Lemma real_cis_lipschitz : cis_lipschitz real_cis.
Proof.
exists (Rmult 2 PI : R_rcfType) => x y; apply/RlebP.
have := cos_sin_diff (Rmult (Rmult 2 PI) x) (Rmult (Rmult 2 PI) y).
have -> : Rminus (Rmult (Rmult 2 PI) x) (Rmult (Rmult 2 PI) y) = Rmult (Rmult 2 PI) (Rplus x (Ropp y)) by ring.
exact.
Qed.

Lemma real_archimedean : Num.archimedean_axiom R_rcfType.
Proof.
move=> x; exists (Z.to_nat (up (Rabs x))); have [h _] := archimed (Rabs x).
have p : Z.le 0 (up (Rabs x)) by apply: le_IZR; have := Rabs_pos x; lra.
rewrite natR INR_IZR_INZ Z2Nat.id //.
apply/andP; split; last by apply/RlebP; rewrite -/(Rabs x); apply: Rlt_le.
by apply/eqP => e; move: h; rewrite e => h; apply: (Rlt_irrefl _ h).
Qed.
