(* Uniform losses with independent particles, and one particle. *)
From mathcomp Require Import all_ssreflect all_algebra complex.
From mathcomp Require Import ring zify.
From Verif Require Import Base SpecStates Combi SpecPerm PermMath SpecBS BsMath BsComb BsNorm SpecProb ProbMath ModelStates ProofSel.
From Verif Require Import ModelGcc ModelGccB ModelNet SpecNet LemNet ProofGcc3 ProofGccB1 ProofGccB2 SpecGcc LemGcc ModelBobs ProofBobs4 ProofBobs5.
From Verif Require Import SpecFixed ModelFixed ProofFixed1 ProofFixed2.
Set Implicit Arguments.
Unset Strict Implicit.
Unset Printing Implicit Defensive.
Import Order.TTheory GRing.Theory Num.Theory.
Local Open Scope ring_scope.
Local Open Scope py_scope.

Section Uniform.
Variable R : rcfType.
Notation C := (ComplexField.complex_numFieldType R).
Notation mat := (seq (seq C)).
Variables (svd : mat -> res (mat * seq R * mat)) (cis : R -> C).
Hypotheses (sv : svd_ok svd) (ok : cis_ok cis).
Variables (m : nat) (M : mat) (eta : R).
Hypotheses (m0 : (0 < m)%N) (sub : subunitary m M) (eta01 : 0 <= eta <= 1).
Variables (s : seq nat) (rand : nat -> rprog R (res (seq R))).
Let n := sumn s.

Lemma weightsE : separable_weights eta n = [seq binomial_weight n eta l | l <- iota 0 n.+1].
Proof. by apply: eq_map => l; rewrite /binomial_weight [eta ^+ l * _]mulrC. Qed.

Lemma new_fixedE l : exists2 y, new_fixed svd M l m None = Ok y & fixed_of svd m M l y.
Proof.
have sz : size (nseq m (0 : C)) = m by rewrite size_nseq.
have [E [e _ _]] := @C37_lossy_network_lemma R svd m M _ sv m0 (proj1 sub) sz.
by rewrite /new_fixed e; eexists; first reflexivity; split=> //; right; exists E.
Qed.

Lemma uniform_sample_always :
  always (fun r => exists d, r = Ok d) (rand m) ->
  always (fun y => exists t, [/\ y = Ok t, size t = m & (sumn t <= n)%N]) (uniform_sample svd cis rand (Uniform M m eta) s).
Proof.
move=> HA; rewrite /uniform_sample [un_eta _]/= [un_matrix _]/= [un_modes _]/= -/n weightsE.
have dw := bw_distr eta01 n; apply: always_rbind; rewrite np_choiceE // => u u01.
rewrite choice_findE //; have [lt _] := search_pos1 dw u01; rewrite size_map size_iota ltnS in lt.
move: (cum_search _ _ _ _) lt => l lt; have [y e fy] := new_fixedE l; rewrite e /rpbind /=.
apply: always_bind; apply: always_impl (fixed_simulate_always sv ok m0 sub s fy 1 HA) => _ [L [-> sL h _ _]].
case: L sL h => [//|t [|]//] _ h; have [st le] := h t (mem_head _ _).
by exists t; split=> //; exact: leq_trans le lt.
Qed.

Section Law.
Variables (S : seq (seq R)) (W : seq R -> R).
Hypothesis HA : always (fun r => exists2 d, r = Ok d & d \in S) (rand m).
Hypothesis HE : forall f, has_exp (on_ok f) (rand m) (\sum_(d <- S) W d * f d).

Lemma uniform_sample_exp f :
  has_exp (on_ok f) (uniform_sample svd cis rand (Uniform M m eta) s)
    (\sum_(t <- lcomps m n) uniform_law cis m M n eta S W t * f t).
Proof.
rewrite /uniform_sample [un_eta _]/= [un_matrix _]/= [un_modes _]/= -/n weightsE.
have := bw_distr eta01 n; set ws := map _ _ => dw.
have sw : size ws = n.+1 by rewrite /ws size_map size_iota.
have nw l : (l < n.+1)%N -> nth 0 ws l = binomial_weight n eta l.
  by move=> ln; rewrite /ws (nth_map 0%N) ?size_iota // nth_iota // add0n.
clearbody ws; rewrite np_choiceE // {1}/rpbind [pbind (Unif _) _]/=.
pose v l := \sum_(t <- lcomps m l) fixed_law cis m M n l S W t * f t.
apply: has_exp_eq (has_exp_choice (val := v) dw _) _.
  move=> l u; rewrite sw ltnS => ln _ _ ->; have [y e fy] := new_fixedE l.
  rewrite -[X in Ret X]/(new_fixed svd M l m None) e rpbind_ok.
  have nl : (0 < sumn s)%N || (l == 0%N) by move: ln; rewrite -/n; case: (n) => //; rewrite leqn0 => ->.
  have H := fixed_simulate_exp sv ok m0 sub fy HA HE nl 1 (fun L => on_ok f (py_get L 0)).
  apply: has_exp_eq (has_exp_rbind (h := fun y => on_ok f (py_get y.1 0)) H _) _.
    by apply: always_true => -[a|//]; exact: ExpRet.
  by apply: eq_bigr.
rewrite sw.
under [RHS]eq_bigr => t _ do rewrite /uniform_law big_mkcond mulr_suml.
rewrite exchange_big; apply: eq_bigr => l _ /=.
rewrite nw // /v mulr_sumr.
have ln : (l <= n)%N by rewrite -ltnS.
rewrite (lcomps_sum _ _ ln) big_mkcond.
by apply: eq_bigr => t _; case: ifP => _; rewrite ?mul0r // mulrA.
Qed.

Lemma uniform_simulate_exp k f :
  has_exp (on_ok (fun y => f y.1)) (uniform_simulate svd cis rand s k (Uniform M m eta))
    (iid_exp (lcomps m n) (uniform_law cis m M n eta S W) k f).
Proof.
have HA' : always (fun r => exists d, r = Ok d) (rand m) by apply: always_impl HA => _ [d ->]; exists d.
have E := @sample_loop_exp R _ _ (fun _ => uniform_sample svd cis rand (Uniform M m eta) s) (fun t => Ok t) (fun=> True)
  (lcomps m n) (uniform_law cis m M n eta S W).
apply: has_exp_rbind (E _ _ k f [::] _) _ => //.
- by move=> _ _; apply: always_impl (uniform_sample_always HA') => _ [t [-> _ _]]; exists t, t.
- by move=> f' _ _; exact: uniform_sample_exp.
apply: always_true => -[y|] //=; exact: ExpRet.
Qed.
End Law.

Lemma uniform_simulate_always k :
  always (fun r => exists d, r = Ok d) (rand m) ->
  always (fun y => exists L, [/\ y = Ok (L, Uniform M m eta), size L = k & forall t, t \in L -> size t = m /\ (sumn t <= n)%N])
    (uniform_simulate svd cis rand s k (Uniform M m eta)).
Proof.
move=> HA.
have H := @sample_loop_always R _ _ (fun _ => uniform_sample svd cis rand (Uniform M m eta) s) (fun t => Ok t) (fun=> True)
  (fun t => size t = m /\ (sumn t <= n)%N) k [::].
apply: always_rbind; apply: always_impl (H _ _) => //.
  by move=> _ [L [g [-> sL _ h]]]; exists L; split=> //= t /aux_in/h.
by move=> _ _; apply: always_impl (uniform_sample_always HA) => _ [t [-> a b]]; exists t, t.
Qed.
End Uniform.
