(* Final forms of the lemmas behind the property theorems: C70 (close networks have close distributions). *)
From mathcomp Require Import all_ssreflect all_algebra complex ring zify.
From Verif Require Import Base SpecStates Combi SpecPerm SpecBS ModelStates ModelPerm ModelDist ProofDist1 SpecProb ModelGcc ModelGccB ModelNet SpecNet SpecGcc SpecMat ModelMat ModelQC BsNorm BsComb ProbMath ProofGccB2 ProofGcc3 ProofGcc6 ProofMat ProofPert1 ProofPert2 ProofPert3 LemStates LemDist LemGcc LemQC.
Set Implicit Arguments.
Unset Strict Implicit.
Unset Printing Implicit Defensive.
Import Order.TTheory GRing.Theory Num.Theory.
Local Open Scope ring_scope.
Local Open Scope py_scope.

Lemma C70_fixed_losses_lemma :
  forall (R : rcfType) (H : eqType) (hash : seq nat -> H) (gray : nat -> seq nat) (m : nat)
    (U V : seq (seq (ComplexField.complex_numFieldType R))) (s : seq nat) (eta d : R) (lost : int) (l : nat) (a b : any_calc (ComplexField.complex_numFieldType R)),
  unitary m U -> unitary m V -> size s = m -> (0 < m)%N -> gray_ok gray (sumn s) ->
  (forall t t', substate t s -> substate t' s -> hash t = hash t' -> t = t') -> (l <= sumn s)%N ->
  matrix_distance U V = Ok d ->
  exists f0, forall fuel, (f0 <= fuel)%N -> exists P a' Q b' t,
  [/\ fixed_distribution hash gray fuel (Config U s (sumn s) m lost l eta) a = Ok (P, a'),
      fixed_distribution hash gray fuel (Config V s (sumn s) m lost l eta) b = Ok (Q, b'),
      tvd_lists P Q = Ok t & t <= l%:R * d].
Proof.
move=> R H hash gray m U V s eta d lost l a b uU uV zs m0 gr inj le ed.
have [sU sV] : is_square m U /\ is_square m V by case: uU uV => [? _] [? _].
have -> : d = frobenius m m U V by move: ed; rewrite (@matrix_distanceE _ m m) // => -[].
have [L [f1 D1]] := C22_fixed_loss_distribution_lemma eta lost a uU zs m0 gr inj le.
have [L' [f2 D2]] := C22_fixed_loss_distribution_lemma eta lost b uV zs m0 gr inj le.
exists (maxn f1 f2) => fuel; rewrite geq_max => /andP[/D1 [P [a' [eo ed1 [eP [uL iL]] _ _]]] /D2 [Q [b' [eo' ed2 [eQ [uL' iL']] _ _]]]].
have eL : L' = L by move: eo eo'; rewrite /fixed_outcomes /= => -> [].
rewrite {}eL in eQ uL' iL'.
have sz : size P = size Q by rewrite eP eQ !size_map.
have [t [et eT _ _ _]] := C46_lists_lemma sz.
exists P, a', Q, b', t; split=> //.
have h2 : 0 < 2%:R :> R by rewrite ltr0n.
rewrite -(ler_pmul2l h2) eT mulrCA divff ?gt_eqF // mulr1.
have pe : perm_eq L (comps m l) by apply: uniq_perm; rewrite ?comps_uniq // => x; rewrite iL mem_comps.
apply: le_trans (fixed_loss_pert uU uV zs le); rewrite -(perm_big _ pe) /= le_eqVlt; apply/orP; left; apply/eqP.
rewrite eP eQ size_map (big_nth [::]) big_mkord; apply: eq_bigr => i _.
by rewrite !(nth_map [::]).
Qed.

Lemma C70_uniform_losses_lemma :
  forall (R : rcfType) (H : eqType) (hash : seq nat -> H) (gray : nat -> seq nat) (m : nat)
    (U V : seq (seq (ComplexField.complex_numFieldType R))) (s : seq nat) (eta d : R) (lost : int) (left : nat) (a b : any_calc (ComplexField.complex_numFieldType R)),
  unitary m U -> unitary m V -> size s = m -> (0 < m)%N -> gray_ok gray (sumn s) ->
  (forall t t', substate t s -> substate t' s -> hash t = hash t' -> t = t') -> 0 <= eta <= 1 ->
  matrix_distance U V = Ok d ->
  exists f0, forall fuel, (f0 <= fuel)%N -> exists P Q t,
  [/\ uniform_distribution hash gray fuel (new_uniform_calc (Config U s (sumn s) m lost left eta) a) = Ok P,
      uniform_distribution hash gray fuel (new_uniform_calc (Config V s (sumn s) m lost left eta) b) = Ok Q,
      tvd_lists P Q = Ok t & t <= (sumn s)%:R * eta * d].
Proof.
move=> R H hash gray m U V s eta d lost left a b uU uV zs m0 gr inj e01 ed.
have [sU sV] : is_square m U /\ is_square m V by case: uU uV => [? _] [? _].
have -> : d = frobenius m m U V by move: ed; rewrite (@matrix_distanceE _ m m) // => -[].
have [L [f1 D1]] := C23_uniform_loss_distribution_lemma lost left a uU zs m0 gr inj e01.
have [L' [f2 D2]] := C23_uniform_loss_distribution_lemma lost left b uV zs m0 gr inj e01.
exists (maxn f1 f2) => fuel; rewrite geq_max => /andP[/D1 [P [eo ed1 [eP [uL iL]] _ _]] /D2 [Q [eo' ed2 [eQ [uL' iL']] _ _]]].
have eL : L' = L by move: eo eo'; rewrite /uniform_outcomes /= => -> [].
rewrite {}eL in eQ uL' iL'.
have sz : size P = size Q by rewrite eP eQ !size_map.
have [t [et eT _ _ _]] := C46_lists_lemma sz.
exists P, Q, t; split=> //.
have h2 : 0 < 2%:R :> R by rewrite ltr0n.
rewrite -(ler_pmul2l h2) eT mulrCA divff ?gt_eqF // mulr1.
have pe : perm_eq L (lcomps m (sumn s)) by apply: uniq_perm; rewrite ?lcomps_uniq // => x; rewrite iL mem_lcomps.
apply: le_trans (uniform_loss_pert uU uV zs e01); rewrite -big_lcomps -(perm_big _ pe) /= le_eqVlt; apply/orP; left; apply/eqP.
rewrite eP eQ size_map (big_nth [::]) big_mkord; apply: eq_bigr => i _.
by rewrite !(nth_map [::]).
Qed.

Lemma C70_sampler_lemma :
  forall (R : rcfType) (gray : nat -> seq nat) (fuel m : nat) (U V : seq (seq (ComplexField.complex_numFieldType R))) (s : seq nat) (k : nat) (d : R)
    (x y : gcc R) (f : seq (seq nat) -> R),
  unitary m U -> unitary m V -> size s = m -> gray_ok gray (sumn s) -> (\prod_(x <- s) x.+1 <= fuel)%N ->
  calc_matrix (g_calc x) = U -> calc_matrix (g_calc y) = V -> (forall L, 0 <= f L <= 1) ->
  matrix_distance U V = Ok d ->
  exists p q, [/\ has_exp (on_ok (fun z => f z.1)) (gcc_simulate gray fuel s k x) p,
    has_exp (on_ok (fun z => f z.1)) (gcc_simulate gray fuel s k y) q
  & `|p - q| <= k%:R * ((sumn s)%:R * d)].
Proof.
move=> R gray fuel m U V s k d x y f uU uV zs gr fu ex ey f01 ed.
have [sU sV] : is_square m U /\ is_square m V by case: uU uV => [? _] [? _].
have -> : d = frobenius m m U V by move: ed; rewrite (@matrix_distanceE _ m m) // => -[].
have uo (W : seq (seq (R[i]))) : unitary m W -> unitary_on m W s.
  case=> h1 h2; split=> // i i' p p'; apply: h2; rewrite -zs ltnNge; [apply: contraTN p|apply: contraTN p'] => h; by rewrite nth_default.
have hU := gcc_simulate_exp (uo U uU) zs gr fu k f ex.
have hV := gcc_simulate_exp (uo V uV) zs gr fu k f ey.
eexists; eexists; split; [exact: hU|exact: hV|].
apply: iid_exp_tv => //; try by move=> t _; exact: bs_prob_ge0.
- exact: bs_prob_norm (uo U uU).
- exact: bs_prob_norm (uo V uV).
exact: bs_prob_pert.
Qed.

Lemma C70_uniform_sampler_lemma :
  forall (R : rcfType) (fuel m : nat) (U V : seq (seq (ComplexField.complex_numFieldType R))) (s : seq nat) (eta : R) (k : nat) (d : R)
    (x y : ugccb R) (f : seq (seq nat) -> R),
  unitary m U -> unitary m V -> size s = m -> (\prod_(x <- s) x.+1 <= fuel)%N -> 0 <= eta <= 1 ->
  calc_matrix (b_calc (ub_b x)) = U -> ub_eta x = eta -> calc_matrix (b_calc (ub_b y)) = V -> ub_eta y = eta ->
  (forall L, 0 <= f L <= 1) -> matrix_distance U V = Ok d ->
  exists p q, [/\ has_exp (on_ok (fun z => f z.1)) (ugccb_simulate fuel s k x) p,
    has_exp (on_ok (fun z => f z.1)) (ugccb_simulate fuel s k y) q
  & `|p - q| <= k%:R * ((sumn s)%:R * eta * d)].
Proof.
move=> R fuel m U V s eta k d x y f uU uV zs fu e01 ex ex' ey ey' f01 ed.
have [sU sV] : is_square m U /\ is_square m V by case: uU uV => [? _] [? _].
have -> : d = frobenius m m U V by move: ed; rewrite (@matrix_distanceE _ m m) // => -[].
have uo (W : seq (seq (R[i]))) : unitary m W -> unitary_on m W s.
  case=> h1 h2; split=> // i i' p p'; apply: h2; rewrite -zs ltnNge; [apply: contraTN p|apply: contraTN p'] => h; by rewrite nth_default.
have hU := ugccb_simulate_exp (uo U uU) zs fu e01 k f ex ex'.
have hV := ugccb_simulate_exp (uo V uV) zs fu e01 k f ey ey'.
eexists; eexists; split; [exact: hU|exact: hV|].
apply: iid_exp_tv => //; try by move=> t _; exact: uniform_loss_ge0.
- by rewrite big_lcomps; exact: uniform_loss_norm (uo U uU).
- by rewrite big_lcomps; exact: uniform_loss_norm (uo V uV).
by rewrite big_lcomps; exact: uniform_loss_pert.
Qed.
