(* The real numbers of the standard library as a real closed field. *)
From Coq Require Import Reals Lra ClassicalEpsilon FunctionalExtensionality.
From mathcomp Require Import all_ssreflect all_algebra.
Set Implicit Arguments.
Unset Strict Implicit.
Unset Printing Implicit Defensive.
Import GRing.Theory.

Section Str.
Local Open Scope R_scope.

Definition Reqb (x y : R) : bool := if Req_EM_T x y then true else false.
Lemma ReqbP : Equality.axiom Reqb.
Proof. by move=> x y; rewrite /Reqb; case: Req_EM_T => h; constructor. Qed.
Canonical R_eqType := EqType R (EqMixin ReqbP).

Definition pickR (P : pred R) (n : nat) : option R :=
  let x := epsilon (inhabits 0) (fun x => P x) in if P x then Some x else None.
Lemma pickR_some P n x : pickR P n = Some x -> P x.
Proof. by rewrite /pickR; case: (boolP (P _)) => // h [<-]. Qed.
Lemma pickR_ex (P : pred R) : (exists x, P x) -> exists n, pickR P n.
Proof. by move=> ex; exists 0%N; rewrite /pickR (epsilon_spec (inhabits 0) (fun x => P x) ex). Qed.
Lemma pickR_ext (P Q : pred R) : P =1 Q -> pickR P =1 pickR Q.
Proof. by move=> e n; rewrite (functional_extensionality P Q e). Qed.
Canonical R_choiceType := ChoiceType R (Choice.Mixin pickR_some pickR_ex pickR_ext).

Lemma RplusA : associative Rplus. Proof. by move=> *; rewrite Rplus_assoc. Qed.
Lemma RplusC : commutative Rplus. Proof. exact: Rplus_comm. Qed.
Lemma RmultA : associative Rmult. Proof. by move=> *; rewrite Rmult_assoc. Qed.
Lemma RmultC : commutative Rmult. Proof. exact: Rmult_comm. Qed.
Canonical R_zmodType := ZmodType R (ZmodMixin RplusA RplusC Rplus_0_l Rplus_opp_l).
Lemma R1_neq_0 : R1 != 0 :> R. Proof. by apply/eqP; exact: R1_neq_R0. Qed.
Lemma RmultDl : left_distributive Rmult Rplus.
Proof. by move=> x y z; rewrite Rmult_plus_distr_r. Qed.
Canonical R_ringType := RingType R (ComRingMixin RmultA RmultC Rmult_1_l RmultDl R1_neq_0).
Canonical R_comRingType := ComRingType R RmultC.
Definition Rinvx (x : R) : R := if x == 0 then 0 else / x.
Lemma RinvxP (x : R) : x != 0 -> Rinvx x * x = 1.
Proof. by move=> x0; rewrite /Rinvx (negPf x0) Rinv_l //; apply/eqP. Qed.
Lemma Rinvx0 : Rinvx 0 = 0. Proof. by rewrite /Rinvx eqxx. Qed.
Definition R_fieldUnitMixin := FieldUnitMixin RinvxP Rinvx0.
Canonical R_unitRingType := UnitRingType R R_fieldUnitMixin.
Canonical R_comUnitRingType := [comUnitRingType of R].
Definition R_fieldMixin : GRing.Field.mixin_of [unitRingType of R] := FieldMixin RinvxP Rinvx0.
Definition R_fieldIdomainMixin := FieldIdomainMixin R_fieldMixin.
Canonical R_idomainType := IdomainType R R_fieldIdomainMixin.
Canonical R_fieldType := FieldType R R_fieldMixin.

Definition Rleb (x y : R) : bool := if Rle_dec x y then true else false.
Definition Rltb (x y : R) : bool := (y != x) && Rleb x y.
Lemma RlebP x y : reflect (x <= y) (Rleb x y).
Proof. by rewrite /Rleb; case: Rle_dec => h; constructor. Qed.

Lemma le0D x y : Rleb 0 x -> Rleb 0 y -> Rleb 0 (x + y).
Proof. by move=> /RlebP ? /RlebP ?; apply/RlebP; lra. Qed.
Lemma le0M x y : Rleb 0 x -> Rleb 0 y -> Rleb 0 (x * y).
Proof. by move=> /RlebP ? /RlebP ?; apply/RlebP; apply: Rmult_le_pos. Qed.
Lemma le0_anti x : Rleb 0 x -> Rleb x 0 -> x = 0.
Proof. by move=> /RlebP ? /RlebP ?; lra. Qed.
Lemma Rsub_ge0 x y : Rleb 0 (y + - x) = Rleb x y.
Proof. by apply/RlebP/RlebP; lra. Qed.
Lemma Rle_total x y : Rleb x y || Rleb y x.
Proof. by apply/orP; have [h|h] := Rle_or_lt x y; [left|right]; apply/RlebP; lra. Qed.
Lemma RnormN x : Rabs (- x) = Rabs x. Proof. exact: Rabs_Ropp. Qed.
Lemma Rge0_norm x : Rleb 0 x -> Rabs x = x.
Proof. by move=> /RlebP h; apply: Rabs_pos_eq. Qed.

Definition RLeMixin : realLeMixin R_idomainType :=
  RealLeMixin le0D le0M le0_anti Rsub_ge0 (Rle_total 0) RnormN Rge0_norm (fun x y => erefl).
Canonical R_porderType := POrderType ring_display R RLeMixin.
Canonical R_latticeType := LatticeType R RLeMixin.
Canonical R_distrLatticeType := DistrLatticeType R RLeMixin.
Canonical R_orderType := OrderType R Rle_total.
Canonical R_numDomainType := NumDomainType R RLeMixin.
Canonical R_normedZmodType := NormedZmodType R R RLeMixin.
Canonical R_numFieldType := [numFieldType of R].
Canonical R_realDomainType := [realDomainType of R].
Canonical R_realFieldType := [realFieldType of R].

Lemma poly_continuity (p : {poly R}) : continuity (fun x => (p.[x])%R).
Proof.
elim/poly_ind: p => [|p c IH].
  have -> : (fun x => (0 : {poly R}).[x]%R) = fct_cte 0 by apply: functional_extensionality => y; rewrite horner0.
  by apply: continuity_const.
have -> : (fun x => ((p * 'X + c%:P).[x])%R) = plus_fct (mult_fct (fun x => (p.[x])%R) Ranalysis1.id) (fct_cte c).
  by apply: functional_extensionality => y; rewrite hornerMXaddC.
apply: continuity_plus; last by apply: continuity_const.
by apply: continuity_mult; [exact: IH|move=> x; exact: derivable_continuous_pt (derivable_pt_id x)].
Qed.

Lemma R_real_closed : Num.real_closed_axiom R_numDomainType.
Proof.
move=> p a b /RlebP ab /andP[/RlebP pa /RlebP pb].
have le0 : (p.[a])%R * (p.[b])%R <= 0 by move: pa pb; rewrite -[0%R]/0; nra.
have [z [[az zb] pz]] := IVT_cor (fun x => (p.[x])%R) a b (poly_continuity p) ab le0.
by exists z; [apply/andP; split; apply/RlebP|apply/eqP].
Qed.
Canonical R_rcfType := RcfType R R_real_closed.
End Str.
