(* Final forms of the lemmas behind the property theorems: C71 (random phases, accuracy of the strategies with independent particles). *)
From mathcomp Require Import all_ssreflect all_algebra complex ring zify.
From Verif Require Import Base SpecStates Combi SpecPerm SpecBS ModelStates ModelPerm SpecProb ModelGcc ModelGccB ModelNet SpecNet SpecGcc ModelBobs SpecFixed ModelFixed SpecLim RealInst RealCis PermMath BsNorm BsComb ProbMath ProofGccB2 ProofGcc3 ProofFixed2 ProofPert3 LemGcc ProofLim1 ProofLim2 ProofLim3 ProofLim4 ProofLim5 ProofLim6 RealLim.
Set Implicit Arguments.
Unset Strict Implicit.
Unset Printing Implicit Defensive.
Import Order.TTheory GRing.Theory Num.Theory.
Local Open Scope ring_scope.
Local Open Scope py_scope.

Lemma C71_expectations_lemma :
  forall (R : rcfType) (A : Type) (f : A -> R) (p : rprog R A) (v : R),
  (has_exp f p v -> lim_exp f p v) /\ (lim_exp f p v -> forall v', lim_exp f p v' -> v = v').
Proof.
move=> R A f p v; split=> [h|h v' h']; [exact: lim_of_exp|exact: lim_exp_fun h h'].
Qed.

Lemma C71_fixed_law_lemma :
  forall (R : rcfType) (svd : seq (seq (ComplexField.complex_numFieldType R)) -> res (seq (seq (ComplexField.complex_numFieldType R)) * seq R * seq (seq (ComplexField.complex_numFieldType R)))) (cis : R -> (ComplexField.complex_numFieldType R)) (m d : nat) (M D : seq (seq (ComplexField.complex_numFieldType R))) (l : nat) (x : fixed R) (s : seq nat) (k : nat),
  Num.archimedean_axiom R -> svd_ok svd -> cis_ok cis -> cis_lipschitz cis -> (0 < m)%N -> subunitary m M -> dilation m d M D ->
  fixed_of svd m M l x -> (0 < sumn s <= m)%N ->
  lim_iid_samples (fixed_simulate cis (@np_rand R) s k x) k [pred t | (size t == m) && (sumn t <= l)%N]
    (spread_prob m d D (sumn s) l).
Proof.
move=> R svd cis m d M D l x s k ar sv ok lp m0 sub dD fx /andP[n0 nm].
apply: (@lim_iid_of_exp _ _ _ _ (lcomps m l)); [exact: lcomps_uniq|by move=> t; rewrite mem_lcomps|move=> f].
by apply: (fixed_simulate_lim ar sv ok lp m0 sub dD fx nm); rewrite n0.
Qed.

Lemma C71_uniform_law_lemma :
  forall (R : rcfType) (svd : seq (seq (ComplexField.complex_numFieldType R)) -> res (seq (seq (ComplexField.complex_numFieldType R)) * seq R * seq (seq (ComplexField.complex_numFieldType R)))) (cis : R -> (ComplexField.complex_numFieldType R)) (m d : nat) (M D : seq (seq (ComplexField.complex_numFieldType R))) (eta : R) (s : seq nat) (k : nat),
  Num.archimedean_axiom R -> svd_ok svd -> cis_ok cis -> cis_lipschitz cis -> (0 < m)%N -> subunitary m M -> dilation m d M D ->
  0 <= eta <= 1 -> (sumn s <= m)%N ->
  lim_iid_samples (uniform_simulate svd cis (@np_rand R) s k (Uniform M m eta)) k [pred t | (size t == m) && (sumn t <= sumn s)%N]
    (spread_uniform m d D (sumn s) eta).
Proof.
move=> R svd cis m d M D eta s k ar sv ok lp m0 sub dD e01 nm.
apply: (@lim_iid_of_exp _ _ _ _ (lcomps m (sumn s))); [exact: lcomps_uniq|by move=> t; rewrite mem_lcomps|move=> f].
exact: (uniform_simulate_lim ar sv ok lp m0 sub dD e01 nm).
Qed.

Lemma C71_fixed_accuracy_lemma :
  forall (R : rcfType) (m d n l : nat) (M D : seq (seq (ComplexField.complex_numFieldType R))),
  dilation m d M D -> (0 < n <= m)%N -> (l <= n)%N ->
  (forall t, 0 <= spread_prob m d D n l t /\ 0 <= lost_prob d D (one_each m n) l t) /\
  exists S, [/\ uniq S, S =i [pred t | (size t == m) && (sumn t <= l)%N],
    \sum_(t <- S) spread_prob m d D n l t = 1 /\ \sum_(t <- S) lost_prob d D (one_each m n) l t = 1,
    \sum_(t <- S) `|spread_prob m d D n l t - lost_prob d D (one_each m n) l t| <= 2%:R * (1 - (n ^_ l)%:R / n%:R ^+ l)
    & 1 - (n ^_ l)%:R / n%:R ^+ l <= (l * l.-1)%:R / (2 * n)%:R :> R].
Proof.
move=> R m d n l M D dD /andP[n0 nm] ln.
split=> [t|]; first by split; [exact: spread_ge0|exact: lost_ge0].
exists (lcomps m l); split; [exact: lcomps_uniq|by move=> t; rewrite mem_lcomps| |exact: (spread_close dD n0 nm ln)|exact: (free_prob_bound R n0 nm ln)].
by split; [exact: (spread_norm dD n0 nm)|exact: (lost_norm dD nm ln)].
Qed.

Lemma C71_lossless_lemma :
  forall (R : rcfType) (m : nat) (U : seq (seq (ComplexField.complex_numFieldType R))) (s : seq nat) (t : seq nat),
  unitary m U ->
  dilation m 0 U U /\
  (forall l, (sumn t <= l)%N -> lost_prob 0 U s l t = if sumn t == l then fixed_loss_prob U s t else 0) /\
  (forall eta, (sumn t <= sumn s)%N -> lost_uniform 0 U s eta t = uniform_loss_prob U s eta t).
Proof.
move=> R m U s t u; split; first exact: unitary_dilation.
by split=> [l|eta] h; [exact: lost_lossless|exact: lost_uniform_lossless].
Qed.

Lemma C71_bound_attained_lemma :
  forall (R : rcfType) (m n l : nat) (I : seq (seq (ComplexField.complex_numFieldType R))),
  is_square m I -> (forall i j : nat, (i < m)%N -> (j < m)%N -> ent I i j = (i == j)%:R) -> (0 < n <= m)%N -> (l <= n)%N ->
  exists S, [/\ uniq S, S =i [pred t | (size t == m) && (sumn t <= l)%N]
    & \sum_(t <- S) `|spread_prob m 0 I n l t - lost_prob 0 I (one_each m n) l t| = 2%:R * (1 - (n ^_ l)%:R / n%:R ^+ l)].
Proof.
move=> R m n l I sI eI /andP[n0 nm] ln.
exists (lcomps m l); split; [exact: lcomps_uniq|by move=> t; rewrite mem_lcomps|exact: (spread_attained sI eI n0 nm ln)].
Qed.

Lemma C71_uniform_accuracy_lemma :
  forall (R : rcfType) (m d n : nat) (M D : seq (seq (ComplexField.complex_numFieldType R))) (eta : R),
  dilation m d M D -> (0 < n <= m)%N -> 0 <= eta <= 1 ->
  (forall t, 0 <= spread_uniform m d D n eta t /\ 0 <= lost_uniform d D (one_each m n) eta t) /\
  exists S, [/\ uniq S, S =i [pred t | (size t == m) && (sumn t <= n)%N],
    \sum_(t <- S) spread_uniform m d D n eta t = 1 /\ \sum_(t <- S) lost_uniform d D (one_each m n) eta t = 1
    & \sum_(t <- S) `|spread_uniform m d D n eta t - lost_uniform d D (one_each m n) eta t| <= n.-1%:R * eta ^+ 2].
Proof.
move=> R m d n M D eta dD /andP[n0 nm] e01.
split=> [t|]; first by split; [exact: spread_uniform_ge0|exact: lost_uniform_ge0].
exists (lcomps m n); split; [exact: lcomps_uniq|by move=> t; rewrite mem_lcomps| |exact: (spread_close_uniform dD n0 nm e01)].
by split; [exact: (spread_uniform_norm eta dD n0 nm)|exact: (lost_uniform_norm eta dD nm)].
Qed.

Lemma C71_close_to_exact_sampler_lemma :
  forall (R : rcfType) (svd : seq (seq (ComplexField.complex_numFieldType R)) -> res (seq (seq (ComplexField.complex_numFieldType R)) * seq R * seq (seq (ComplexField.complex_numFieldType R)))) (cis : R -> (ComplexField.complex_numFieldType R)) (m n fuel : nat) (U : seq (seq (ComplexField.complex_numFieldType R))) (eta : R) (k : nat) (x : ugccb R) (f : seq (seq nat) -> R),
  Num.archimedean_axiom R -> svd_ok svd -> cis_ok cis -> cis_lipschitz cis -> unitary m U -> (0 < n <= m)%N -> 0 <= eta <= 1 ->
  (\prod_(y <- one_each m n) y.+1 <= fuel)%N -> calc_matrix (b_calc (ub_b x)) = U -> ub_eta x = eta ->
  (forall L, 0 <= f L <= 1) ->
  exists v v', [/\ lim_exp (on_ok (fun y => f y.1)) (uniform_simulate svd cis (@np_rand R) (one_each m n) k (Uniform U m eta)) v,
      has_exp (on_ok (fun y => f y.1)) (ugccb_simulate fuel (one_each m n) k x) v'
    & `|v - v'| <= k%:R * (n.-1%:R * eta ^+ 2 / 2%:R)].
Proof.
move=> R svd cis m n fuel U eta k x f ar sv ok lp u /andP[n0 nm] e01 fu e1 e2 f01.
have sn := sumn_one_each m n; have ss := size_one_each nm.
have m0 : (0 < m)%N := leq_trans n0 nm.
have sub := unitary_sub u; have dU := unitary_dilation u.
have on : unitary_on m U (one_each m n).
  case: u => [sq o]; split=> // i i' p p'.
  have lt j : (0 < nth 0%N (one_each m n) j)%N -> (j < m)%N by move/nth_pos_lt; rewrite ss.
  by apply: o; exact: lt.
have nm' : (sumn (one_each m n) <= m)%N by rewrite sn.
exists (iid_exp (lcomps m n) (spread_uniform m 0 U n eta) k f), (iid_exp (lcomps m n) (uniform_loss_prob U (one_each m n) eta) k f); split.
- by have := uniform_simulate_lim ar sv ok lp m0 sub dU e01 nm' k f; rewrite sn.
- by have := ugccb_simulate_exp on ss fu e01 k f e1 e2; rewrite sn.
have eq t : t \in lcomps m n -> lost_uniform 0 U (one_each m n) eta t = uniform_loss_prob U (one_each m n) eta t.
  by rewrite mem_lcomps => /andP[_ le]; rewrite lost_uniform_lossless // sn.
have P1 := spread_uniform_norm eta dU n0 nm.
have Q1 : \sum_(t <- lcomps m n) uniform_loss_prob U (one_each m n) eta t = 1.
  by rewrite -(eq_big_seq _ eq); exact: (lost_uniform_norm eta dU nm).
have tv : \sum_(t <- lcomps m n) `|spread_uniform m 0 U n eta t - uniform_loss_prob U (one_each m n) eta t| <= 2%:R * (n.-1%:R * eta ^+ 2 / 2%:R).
  rewrite mulrCA divff ?mulr1 ?pnatr_eq0 //; apply: le_trans (spread_close_uniform dU n0 nm e01).
  by rewrite le_eqVlt; apply/orP; left; apply/eqP; apply: eq_big_seq => t /eq ->.
apply: iid_exp_tv => //.
- by move=> t tS; exact: spread_uniform_ge0.
- by move=> t tS; rewrite -eq // lost_uniform_ge0.
Qed.

Lemma C71_reals_lemma :
  Num.archimedean_axiom R_rcfType /\ cis_ok real_cis /\ cis_lipschitz real_cis.
Proof.
by split; [exact: real_archimedean|split; [exact: real_cis_ok|exact: real_cis_lipschitz]].
Qed.
