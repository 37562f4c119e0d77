(* Final forms of the lemmas behind the property theorems: C50, C51, C58 (strategies with independent particles). *)
From mathcomp Require Import all_ssreflect all_algebra complex ring zify.
From Verif Require Import Base SpecStates Combi SpecPerm SpecBS SpecProb ModelGcc ModelGccB ModelNet SpecNet SpecGcc ModelBobs ModelFixed SpecFixed PermMath ProbMath LemNet LemGcc ProofGccB2 ProofBobs5 ProofFixed1 ProofFixed2 ProofFixed3 ProofFixed4 ProofLS6.
Set Implicit Arguments.
Unset Strict Implicit.
Unset Printing Implicit Defensive.
Import Order.TTheory GRing.Theory Num.Theory.
Local Open Scope ring_scope.
Local Open Scope py_scope.

Lemma C50_new_object_lemma :
  forall (R : rcfType) (svd : seq (seq (ComplexField.complex_numFieldType R)) -> res (seq (seq (ComplexField.complex_numFieldType R)) * seq R * seq (seq (ComplexField.complex_numFieldType R)))) (m : nat) (M : seq (seq (ComplexField.complex_numFieldType R))) (l : nat),
  svd_ok svd -> (0 < m)%N -> subunitary m M ->
  (exists2 x, new_fixed svd M l m None = Ok x & fixed_of svd m M l x) /\
  (exists2 x, new_fixed svd M l m (Some (LosslessNetwork M)) = Ok x & fixed_of svd m M l x).
Proof.
move=> R svd m M l sv m0 sub; split; first exact: new_fixedE.
by eexists; [reflexivity|split=> //; left].
Qed.

Lemma C50_shape_lemma :
  forall (R : rcfType) (svd : seq (seq (ComplexField.complex_numFieldType R)) -> res (seq (seq (ComplexField.complex_numFieldType R)) * seq R * seq (seq (ComplexField.complex_numFieldType R)))) (cis : R -> (ComplexField.complex_numFieldType R)) (m : nat) (M : seq (seq (ComplexField.complex_numFieldType R))) (l : nat) (x : fixed R) (s : seq nat) (k : nat),
  svd_ok svd -> cis_ok cis -> (0 < m)%N -> subunitary m M -> fixed_of svd m M l x ->
  always (fun y => exists L, [/\ y = Ok (L, x), size L = k, forall t, t \in L -> size t = m /\ (sumn t <= l)%N,
      sumn s = 0%N -> L = nseq k (l :: nseq m.-1 0%N)
    & unitary m M -> (0 < sumn s <= m)%N -> forall t, t \in L -> sumn t = l])
    (fixed_simulate cis (@np_rand R) s k x).
Proof.
move=> R svd cis m M l x s k sv ok m0 sub fx; exact: (fixed_simulate_always sv ok m0 sub s fx k (np_rand_always R m)).
Qed.

Lemma C50_no_particles_refuted_lemma :
  forall (R : rcfType) (svd : seq (seq (ComplexField.complex_numFieldType R)) -> res (seq (seq (ComplexField.complex_numFieldType R)) * seq R * seq (seq (ComplexField.complex_numFieldType R)))) (cis : R -> (ComplexField.complex_numFieldType R)) (m : nat) (M : seq (seq (ComplexField.complex_numFieldType R))) (l : nat) (x : fixed R) (s : seq nat),
  svd_ok svd -> cis_ok cis -> (0 < m)%N -> subunitary m M -> fixed_of svd m M l x -> sumn s = 0%N -> (0 < l)%N ->
  always (fun y => exists2 t, y = Ok ([:: t], x) & ~ (sumn t <= sumn s)%N) (fixed_simulate cis (@np_rand R) s 1 x).
Proof.
move=> R svd cis m M l x s sv ok m0 sub fx s0 l0.
apply: always_impl (fixed_simulate_always sv ok m0 sub s fx 1 (np_rand_always R m)) => _ [L [-> sL h /(_ s0) e _]].
exists (l :: nseq m.-1 0%N); first by rewrite e.
rewrite /= sumn_nseq mul0n addn0 s0; lia.
Qed.

Lemma C50_law_lemma :
  forall (R : rcfType) (svd : seq (seq (ComplexField.complex_numFieldType R)) -> res (seq (seq (ComplexField.complex_numFieldType R)) * seq R * seq (seq (ComplexField.complex_numFieldType R)))) (cis : R -> (ComplexField.complex_numFieldType R)) (m : nat) (M : seq (seq (ComplexField.complex_numFieldType R))) (l : nat) (x : fixed R) (s : seq nat) (k : nat)
    (rand : nat -> rprog R (res (seq R))) (S : seq (seq R)) (W : seq R -> R),
  svd_ok svd -> cis_ok cis -> (0 < m)%N -> subunitary m M -> fixed_of svd m M l x -> (0 < sumn s)%N ->
  always (fun r => exists2 d, r = Ok d & d \in S) (rand m) ->
  (forall f, has_exp (on_ok f) (rand m) (\sum_(d <- S) W d * f d)) ->
  iid_samples (fixed_simulate cis rand s k x) k [pred t | (size t == m) && (sumn t <= l)%N]
    (fixed_law cis m M (sumn s) l S W).
Proof.
move=> R svd cis m M l x s k rand S W sv ok m0 sub fx n0 HA HE.
have nl : (0 < sumn s)%N || (l == 0%N) by rewrite n0.
apply: (@iid_of_exp R _ _ k (lcomps m l)); first exact: lcomps_uniq; first by move=> t; rewrite mem_lcomps.
by move=> f; exact: (fixed_simulate_exp sv ok m0 sub fx HA HE nl).
Qed.

Lemma C50_distribution_lemma :
  forall (R : rcfType) (cis : R -> (ComplexField.complex_numFieldType R)) (m : nat) (M : seq (seq (ComplexField.complex_numFieldType R))) (n l : nat) (S : seq (seq R)) (W : seq R -> R),
  cis_ok cis -> (0 < m)%N -> subunitary m M -> (0 < n)%N -> (forall d, d \in S -> 0 <= W d) -> \sum_(d <- S) W d = 1 ->
  (forall t, 0 <= fixed_law cis m M n l S W t) /\
  exists L, [/\ uniq L, L =i [pred t | (size t == m) && (sumn t <= l)%N] & \sum_(t <- L) fixed_law cis m M n l S W t = 1].
Proof.
move=> R cis m M n l S W ok m0 sub n0 W0 W1; split.
  move=> t; rewrite /fixed_law big_seq sumr_ge0 // => d dS; rewrite mulr_ge0 // ?W0 //.
  apply: multinomial_ge0; [exact: (smeared_ge0 cis m M n d)|exact: (smeared_le1 ok sub d n0)].
exists (lcomps m l); split; [exact: lcomps_uniq|by move=> t; rewrite mem_lcomps|].
rewrite exchange_big /= -[RHS]W1; apply: eq_bigr => d _; rewrite -mulr_sumr (multinomial_sum l) ?mulr1 //.
by rewrite size_map size_iota.
Qed.

Lemma C51_shape_lemma :
  forall (R : rcfType) (svd : seq (seq (ComplexField.complex_numFieldType R)) -> res (seq (seq (ComplexField.complex_numFieldType R)) * seq R * seq (seq (ComplexField.complex_numFieldType R)))) (cis : R -> (ComplexField.complex_numFieldType R)) (m : nat) (M : seq (seq (ComplexField.complex_numFieldType R))) (eta : R) (s : seq nat) (k : nat),
  svd_ok svd -> cis_ok cis -> (0 < m)%N -> subunitary m M -> 0 <= eta <= 1 ->
  always (fun y => exists L, [/\ y = Ok (L, Uniform M m eta), size L = k & forall t, t \in L -> size t = m /\ (sumn t <= sumn s)%N])
    (uniform_simulate svd cis (@np_rand R) s k (Uniform M m eta)).
Proof.
move=> R svd cis m M eta s k sv ok m0 sub e01; exact: (uniform_simulate_always sv ok m0 sub e01 s k (np_rand_always R m)).
Qed.

Lemma C51_law_lemma :
  forall (R : rcfType) (svd : seq (seq (ComplexField.complex_numFieldType R)) -> res (seq (seq (ComplexField.complex_numFieldType R)) * seq R * seq (seq (ComplexField.complex_numFieldType R)))) (cis : R -> (ComplexField.complex_numFieldType R)) (m : nat) (M : seq (seq (ComplexField.complex_numFieldType R))) (eta : R) (s : seq nat) (k : nat)
    (rand : nat -> rprog R (res (seq R))) (S : seq (seq R)) (W : seq R -> R),
  svd_ok svd -> cis_ok cis -> (0 < m)%N -> subunitary m M -> 0 <= eta <= 1 ->
  always (fun r => exists2 d, r = Ok d & d \in S) (rand m) ->
  (forall f, has_exp (on_ok f) (rand m) (\sum_(d <- S) W d * f d)) ->
  iid_samples (uniform_simulate svd cis rand s k (Uniform M m eta)) k [pred t | (size t == m) && (sumn t <= sumn s)%N]
    (uniform_law cis m M (sumn s) eta S W).
Proof.
move=> R svd cis m M eta s k rand S W sv ok m0 sub e01 HA HE.
apply: (@iid_of_exp R _ _ k (lcomps m (sumn s))); first exact: lcomps_uniq; first by move=> t; rewrite mem_lcomps.
by move=> f; exact: (uniform_simulate_exp sv ok m0 sub e01 s HA HE).
Qed.

Lemma C51_outside_lemma :
  forall (R : rcfType) (svd : seq (seq (ComplexField.complex_numFieldType R)) -> res (seq (seq (ComplexField.complex_numFieldType R)) * seq R * seq (seq (ComplexField.complex_numFieldType R)))) (cis : R -> (ComplexField.complex_numFieldType R)) (m : nat) (M : seq (seq (ComplexField.complex_numFieldType R))) (eta : R) (s : seq nat) (k : nat) rand,
  (0 < sumn s)%N -> (0 < k)%N -> 1 < eta ->
  uniform_simulate svd cis rand s k (Uniform M m eta) = Ret (Err ValueError).
Proof.
move=> R svd cis m M eta s [//|k] rand n0 _ e1.
rewrite /uniform_simulate [sample_loop _ _ _ _]/=; set P := uniform_sample _ _ _ _ _.
suff -> : P = Ret (Err ValueError) by [].
rewrite /P /uniform_sample [un_eta _]/= /np_choice ifT //; apply/orP; left; apply/hasP.
exists (eta ^+ (sumn s).-1 * 'C(sumn s, (sumn s).-1)%:R * (1 - eta) ^+ (sumn s - (sumn s).-1)).
  by apply/mapP; exists (sumn s).-1; rewrite // mem_iota; lia.
rewrite (_ : sumn s - (sumn s).-1 = 1)%N ?expr1; last by lia.
rewrite pmulr_rlt0 ?subr_lt0 //.
by rewrite mulr_gt0 ?exprn_gt0 ?ltr0n ?bin_gt0 ?leq_pred // (lt_trans ltr01 e1).
Qed.

Lemma C58_one_particle_exact_lemma :
  forall (R : rcfType) (cis : R -> (ComplexField.complex_numFieldType R)) (m : nat) (M : seq (seq (ComplexField.complex_numFieldType R))) (n : nat) (S : seq (seq R)) (W : seq R -> R) (t : seq nat),
  (n <= m)%N -> uncorrelated cis m S W -> size t = m -> sumn t = 1%N ->
  fixed_law cis m M n 1 S W t = fixed_loss_prob M (nseq n 1%N ++ nseq (m - n) 0%N) t.
Proof.
move=> R cis m M n S W t nm unc st s1; have [i im ->] := singleP st s1.
rewrite (@fixed_loss_one R M m) //; last by rewrite size_cat !size_nseq subnKC.
rewrite /fixed_law; under eq_bigr => d _ do rewrite multinomial_one //.
rewrite smeared_mean // sumn_cat !sumn_nseq mul1n mul0n addn0; congr (_ / _).
rewrite big_mkcond; apply: eq_bigr => j _; rewrite nth_cat size_nseq !nth_nseq.
by case: ltnP; rewrite ?if_same ?mul1r ?mul0r.
Qed.

Lemma C58_positions_refuted_lemma :
  forall (R : rcfType) (svd : seq (seq (ComplexField.complex_numFieldType R)) -> res (seq (seq (ComplexField.complex_numFieldType R)) * seq R * seq (seq (ComplexField.complex_numFieldType R)))) (cis : R -> (ComplexField.complex_numFieldType R)) (x : fixed R),
  svd_ok svd -> cis_ok cis -> fixed_of svd 2 [:: [:: 1; 0]; [:: 0; 1]] 1 x ->
  (forall d : seq R, has_exp (on_ok (fun y => (y.1 == [:: [:: 1; 0]]%N)%:R)) (fixed_simulate cis (fun=> Ret (Ok d)) [:: 0; 1]%N 1 x) 1) /\
  fixed_loss_prob [:: [:: 1; 0]; [:: 0; 1 : (ComplexField.complex_numFieldType R)]] [:: 0; 1]%N [:: 1; 0]%N = 0.
Proof.
move=> R svd cis x sv ok fx; split.
  move=> d; have uI := @eye_unitary R 2; rewrite /np_eye /= in uI.
  have sub := unitary_sub uI.
  have HA : always (fun r => exists2 d', r = Ok d' & d' \in [:: d]) ((fun=> Ret (Ok d)) 2%N : rprog R (res (seq R))) by exists d; rewrite ?mem_head.
  have HE f : has_exp (on_ok f) ((fun=> Ret (Ok d)) 2%N : rprog R (res (seq R))) (\sum_(d' <- [:: d]) (fun=> 1) d' * f d').
    by rewrite big_seq1 mul1r; exact: ExpRet.
  have H := @C50_law_lemma R svd cis 2 _ 1 x [:: 0; 1]%N 1 (fun=> Ret (Ok d)) [:: d] (fun=> 1) sv ok isT sub fx isT HA HE [:: [:: 1; 0]%N].
  apply: has_exp_eq H _; rewrite /= big_seq1 /fixed_law big_seq1 mul1r.
  have -> : [:: 1; 0]%N = single 2 0 by rewrite /single incrE.
  rewrite multinomial_one // /smeared /= big_mkcond !big_ord_recl big_ord0 /= /ent /= mul1r !addr0 divr1.
  by case: ok => _ ->.
have -> : [:: 1; 0]%N = single 2 0 by rewrite /single incrE.
rewrite (@fixed_loss_one R _ 2) //.
by rewrite !big_ord_recl big_ord0 /ent /= /nsq /= !expr0n /= !mul0r !(mulr0, addr0) mul0r.
Qed.
